(** * The applications (app/src/main.cc, libpyclingo-lpx/clingolpx/__main__.py): from the command line to the registered theory *)

From Coq Require Import Ascii String.
From Verif Require Import Num Solver Propagator Parsing Api Grammar Lifecycle.

Section app.
  Context (rd : list ascii -> option Qc) (bk : backend) (m : Z -> Z).
  Notation call_ := (api_call rd bk m).

  (** clingo_main (clingo.hh, clingo.application): the options of the command
      line are handed to the parsers registered by register_options (main.cc
      136-138, __main__.py 33-38) one after the other; a parser that returns
      false ends the program with an error (None). *)
  Fixpoint app_settings (cs : list call) (h : handle) : left (option handle) :=
    match cs with
    | [] => Returned (Some h)
    | c :: r =>
        match call_ 0 c h with
        | Returned (Failed, _) | Returned (_, None) => Returned None
        | Returned (_, Some h') => app_settings r h'
        | Escaped => Escaped | Undefined => Undefined | Running => Running
        end
    end.
  (** The constructor, main.cc 59 (clingolpx_create); validate_options 140; main
      117-118: register.  handle_error throws if a call returns false, clingo
      then ends the program with an error (None).  [added], [registered]: the
      replies of clingo to the calls of clingolpx_register. *)
  Definition app_start (cs : list call) (added registered : bool) : left (option handle) :=
    match app_settings cs new_handle with
    | Returned (Some h) =>
        match call_ 0 Validate h with
        | Returned (Failed, _) | Returned (_, None) => Returned None
        | Returned (_, Some h1) =>
            match call_ 0 (Register added registered) h1 with
            | Returned (Failed, _) | Returned (_, None) => Returned None
            | Returned (_, Some h2) => Returned (Some h2)
            | Escaped => Escaped | Undefined => Undefined | Running => Running
            end
        | Escaped => Escaped | Undefined => Undefined | Running => Running
        end
    | r => r
    end.

  (** Rewriter, app/lib/src/app.cc 34-54: clingo_ast_parse_files calls
      rewrite_ for every statement of the files, in order, until one returns
      false; rewrite_ calls clingolpx_rewrite_ast, which passes the statement to
      add_, and that to clingo_program_builder_add.  [accepts]: what clingo
      returns for a statement; the result: the statements given to the program
      builder, and whether the call succeeds (otherwise handle_error throws). *)
  Fixpoint rewriter {S : Type} (accepts : S -> bool) (stms : list S) (h : handle) : left (list S * bool) :=
    match stms with
    | [] => Returned ([], true)
    | s :: r =>
        match call_ 0 (RewriteAst (accepts s)) h with
        | Returned (Passed true, Some h') =>
            match rewriter accepts r h' with
            | Returned (l, ok) => Returned (s :: l, ok) | Escaped => Escaped | Undefined => Undefined | Running => Running
            end
        | Returned (_, _) => Returned ([s], false)
        | Escaped => Escaped | Undefined => Undefined | Running => Running
        end
    end.
End app.
