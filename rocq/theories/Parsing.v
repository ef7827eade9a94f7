(** * Theory terms and evaluate_theory (parsing.hh, parsing.cc)

    Model of all of parsing.cc.  Strings are Coq strings (lists of bytes);
    a C string has no byte 0, which only makes the model more general.

    Simplifications: where the code appends to a vector [res] the model returns
    the appended part; the operands of a binary operator are evaluated from
    left to right (the C++ order is unspecified and only matters if both fail);
    the unordered_map of [simplify] is modelled by searching the terms already
    visited. *)

From Coq Require Export Ascii String.
From stdpp Require Export strings.
From Verif Require Import Num Solver.
Global Open Scope nat_scope.

(** ** Data of clingo *)

(** Clingo::Symbol (the constants #inf and #sup cannot be produced here). *)
Inductive symbol :=
  | SNum (z : Z)
  | SStr (s : string)
  | SFun (name : string) (args : list symbol) (pos : bool).

(** Clingo::TheoryTerm. *)
Inductive tterm :=
  | TNum (z : Z)
  | TSym (name : string)
  | TFun (name : string) (args : list tterm)
  | TTup (args : list tterm)
  | TLst (args : list tterm)
  | TSet (args : list tterm).

(** Clingo::TheoryElement: tuple, condition and condition_id. *)
Record telem := TElem { te_tuple : list tterm; te_cond : list Z; te_cid : Z }.
(** Clingo::TheoryAtom: term, elements, guard and literal. *)
Record tatom := TAtom { ta_term : tterm; ta_elems : list telem; ta_guard : option (string * tterm); ta_lit : Z }.

Section symbol_ind.
  Variable P : symbol -> Prop.
  Hypothesis Hn : forall z, P (SNum z).
  Hypothesis Hs : forall s, P (SStr s).
  Hypothesis Hf : forall n l b, Forall P l -> P (SFun n l b).
  Fixpoint symbol_ind' (s : symbol) : P s :=
    match s with
    | SNum z => Hn z
    | SStr s => Hs s
    | SFun n l b => Hf n l b ((fix go l := match l return Forall P l with [] => Forall_nil_2 P | x :: r => Forall_cons_2 P x r (symbol_ind' x) (go r) end) l)
    end.
End symbol_ind.

Section tterm_ind.
  Variable P : tterm -> Prop.
  Hypothesis Hn : forall z, P (TNum z).
  Hypothesis Hs : forall s, P (TSym s).
  Hypothesis Hf : forall n l, Forall P l -> P (TFun n l).
  Hypothesis Ht : forall l, Forall P l -> P (TTup l).
  Hypothesis Hl : forall l, P (TLst l).
  Hypothesis He : forall l, P (TSet l).
  Fixpoint tterm_ind' (t : tterm) : P t :=
    let go := fix go l := match l return Forall P l with [] => Forall_nil_2 P | x :: r => Forall_cons_2 P x r (tterm_ind' x) (go r) end in
    match t with
    | TNum z => Hn z
    | TSym s => Hs s
    | TFun n l => Hf n l (go l)
    | TTup l => Ht l (go l)
    | TLst l => Hl l
    | TSet l => He l
    end.
End tterm_ind.

(** equality of symbols *)
Fixpoint symbol_eqb (x y : symbol) : bool :=
  match x, y with
  | SNum a, SNum b => (a =? b)%Z
  | SStr a, SStr b => String.eqb a b
  | SFun n l p, SFun m k q =>
      String.eqb n m && Bool.eqb p q &&
      (fix go (l k : list symbol) : bool :=
         match l, k with
         | [], [] => true
         | a :: l', b :: k' => symbol_eqb a b && go l' k'
         | _, _ => false
         end) l k
  | _, _ => false
  end.
Lemma symbol_eqb_spec x y : symbol_eqb x y = true <-> x = y.
Proof.
  revert y. induction x as [z|s|n l b IH] using symbol_ind'; intros [z'|s'|n' l' b']; cbn; try (split; congruence).
  - rewrite Z.eqb_eq. split; congruence.
  - rewrite String.eqb_eq. split; congruence.
  - rewrite !andb_true_iff, String.eqb_eq, Bool.eqb_true_iff.
    match goal with |- (_ /\ ?g l l' = true) <-> _ => set (go := g) end.
    assert (E : go l l' = true <-> l = l').
    { revert l'. induction IH as [|x l Hx _ IH]; intros [|y l']; cbn; try (split; congruence).
      rewrite andb_true_iff, Hx. specialize (IH l'). split; [intros [-> E2]; f_equal; apply IH; exact E2|intros [= -> ->]; split; auto; apply IH; auto]. }
    rewrite E. split; [intros ((-> & ->) & ->); auto|intros [= -> -> ->]; auto].
Qed.
Global Instance symbol_eq_dec : EqDecision symbol.
Proof.
  intros x y. destruct (symbol_eqb x y) eqn:E; [left; apply symbol_eqb_spec; auto|right].
  intros ->. rewrite (proj2 (symbol_eqb_spec y y) eq_refl) in E. discriminate.
Defined.

(** The library behind Rational: number_flint.hh or number_imath.hh.  They
    differ in a division by zero: FLINT calls flint_abort (modelled by [UB]),
    number_imath.hh 197-213 throws std::domain_error. *)
Inductive backend := Flint | Imath.
Definition qdiv (bk : backend) (a b : Qc) : res Qc :=
  if decide (b = 0%Qc) then match bk with Flint => UB | Imath => Exn end else Ok (a / b)%Qc.
Definition qofz (z : Z) : Qc := Q2Qc (inject_Z z).

(** ** Quoted strings *)
Definition dquote : ascii := "034".
Definition is_digit (c : ascii) : bool := (48 <=? nat_of_ascii c) && (nat_of_ascii c <=? 57).
Definition digit (c : ascii) : Z := Z.of_nat (nat_of_ascii c) - 48.
Fixpoint span_digits (s : list ascii) : list ascii * list ascii :=
  match s with
  | c :: r => if is_digit c then let '(a, b) := span_digits r in (c :: a, b) else ([], s)
  | [] => ([], [])
  end.
(** the number written by a list of digits *)
Definition read_nat (s : list ascii) : Z := fold_left (fun a c => 10 * a + digit c)%Z s 0%Z.

(** is_string, parsing.cc 36-44 (on the name of a term of type Symbol). *)
Definition is_string (name : string) : bool :=
  match list_ascii_of_string name with
  | c :: r => Ascii.eqb c dquote && (match last r with Some d => Ascii.eqb d dquote | None => false end)
  | [] => false
  end.
(** the characters between the quotes *)
Definition inner (name : string) : list ascii := removelast (tail (list_ascii_of_string name)).

(** Rational{char const *, 10}, number_flint.hh 441-464, number_imath.hh: an
    optional sign, digits, and optionally a slash and digits; anything else and
    the denominator 0 are refused.  (Both libraries also accept some other
    spellings, e.g. white space; as_num never produces these.) *)
Definition read_int (s : list ascii) : option Z :=
  let '(neg, r) := match s with c :: r => if Ascii.eqb c "-" then (true, r) else (false, s) | [] => (false, []) end in
  let '(ds, e) := span_digits r in
  match ds, e with
  | _ :: _, [] => Some (if neg : bool then - read_nat ds else read_nat ds)%Z
  | _, _ => None
  end.
Fixpoint split_slash (s : list ascii) : list ascii * option (list ascii) :=
  match s with
  | [] => ([], None)
  | c :: r => if Ascii.eqb c "/" then ([], Some r) else let '(a, b) := split_slash r in (c :: a, b)
  end.
Definition read_rational (s : list ascii) : option Qc :=
  match split_slash s with
  | (a, None) => match read_int a with Some n => Some (qofz n) | None => None end
  | (a, Some b) =>
      match read_int a, read_int b with
      | Some n, Some d => if (d =? 0)%Z then None else Some (qofz n / qofz d)%Qc
      | _, _ => None
      end
  end.

(** The match of the regular expression (-)?([0-9]+)(\.([0-9]+))? in as_num:
    sign, digits, digits after the point. *)
Definition match_decimal (s : list ascii) : option (bool * list ascii * option (list ascii)) :=
  let '(neg, r) := match s with c :: r => if Ascii.eqb c "-" then (true, r) else (false, s) | [] => (false, []) end in
  let '(ds, e) := span_digits r in
  match ds with
  | [] => None
  | _ =>
      match e with
      | [] => Some (neg, ds, None)
      | c :: e' =>
          if Ascii.eqb c "." then
            let '(fs, e'') := span_digits e' in
            match fs, e'' with _ :: _, [] => Some (neg, ds, Some fs) | _, _ => None end
          else None
      end
  end.
(** the loop of lines 116-117: drop trailing zeros *)
Definition drop_zeros (fs : list ascii) : list ascii :=
  reverse ((fix go l := match l with c :: r => if Ascii.eqb c "0" then go r else l | [] => [] end) (reverse fs)).
(** as_num, parsing.cc 100-130. *)
Definition as_num (name : string) : option Qc :=
  let s := list_ascii_of_string name in
  if (length s <=? 2) || negb (is_string name) then None
  else
    match match_decimal (inner name) with
    | None => None
    | Some (neg, ds, fs) =>
        let a := match fs with
                 | None => ds
                 | Some fs => let f := drop_zeros fs in ds ++ f ++ ["/"%char; "1"%char] ++ repeat "0"%char (length f)
                 end in
        match read_rational a with
        | None => None     (* Rational throws; unreachable, see as_num_spec *)
        | Some n => Some (if neg : bool then - n else n)%Qc
        end
    end.

(** unquote, parsing.cc 132-164; an unknown escape sequence is a failed
    assertion. *)
Fixpoint unquote_go (slash : bool) (s : list ascii) : res (list ascii) :=
  match s with
  | [] => Ok []
  | c :: r =>
      if slash then
        d ← (if Ascii.eqb c "n" then Ok "010"%char else if Ascii.eqb c "\" then Ok "\"%char
             else if Ascii.eqb c dquote then Ok dquote else UB);
        r' ← unquote_go false r; Ok (d :: r')
      else if Ascii.eqb c "\" then unquote_go true r
      else r' ← unquote_go false r; Ok (c :: r')
  end.
Definition unquote (s : list ascii) : res string := r ← unquote_go false s; Ok (string_of_list_ascii r).

(** ** Evaluation of terms *)

(** AS / as_sym, parsing.cc 86-98. *)
Definition as_sym (x : Qc + symbol) : res symbol :=
  match x with
  | inl q => if bool_decide (Qden q = 1%positive) && (-2147483648 <=? Qnum q)%Z && (Qnum q <=? 2147483647)%Z then Ok (SNum (Qnum q)) else Exn
  | inr s => Ok s
  end.
(** EU, parsing.cc 76-84. *)
Definition eval_neg (x : Qc + symbol) : res (Qc + symbol) :=
  match x with
  | inl q => Ok (inl (- q)%Qc)
  | inr (SFun n args pos) => if String.eqb n "" then Exn else Ok (inr (SFun n args (negb pos)))
  | inr _ => Exn
  end.
(** EB and the template evaluate, parsing.cc 67-74, 168-171. *)
Definition eval_bin (f : Qc -> Qc -> res Qc) (a b : res (Qc + symbol)) : res (Qc + symbol) :=
  x ← a; y ← b;
  match x, y with
  | inl x, inl y => r ← f x y; Ok (inl r)
  | _, _ => Exn
  end.

Section evaluate.
  Variable bk : backend.

  (** evaluate, parsing.cc 173-224. *)
  Fixpoint evaluate (num_str : bool) (t : tterm) : res (Qc + symbol) :=
    let eval_args := fix go (l : list tterm) : res (list symbol) :=
      match l with
      | [] => Ok []
      | x :: r => v ← evaluate false x; s ← as_sym v; r' ← go r; Ok (s :: r')
      end in
    match t with
    | TSym n =>
        if is_string n then
          match (if num_str then as_num n else None) with
          | Some q => Ok (inl q)
          | None => s ← unquote (inner n); Ok (inr (SStr s))
          end
        else Ok (inr (SFun n [] true))
    | TNum z => Ok (inl (qofz z))
    | TFun n args =>
        match args with
        | [a; b] =>
            if String.eqb n "+" then eval_bin (fun x y => Ok (x + y)%Qc) (evaluate num_str a) (evaluate num_str b)
            else if String.eqb n "-" then eval_bin (fun x y => Ok (x - y)%Qc) (evaluate num_str a) (evaluate num_str b)
            else if String.eqb n "*" then eval_bin (fun x y => Ok (x * y)%Qc) (evaluate num_str a) (evaluate num_str b)
            else if String.eqb n "/" then eval_bin (qdiv bk) (evaluate num_str a) (evaluate num_str b)
            else if String.eqb n ".." then Exn
            else l ← eval_args args; Ok (inr (SFun n l true))
        | [a] =>
            if String.eqb n "-" then v ← evaluate num_str a; eval_neg v
            else l ← eval_args args; Ok (inr (SFun n l true))
        | _ => l ← eval_args args; Ok (inr (SFun n l true))
        end
    | TTup args => l ← eval_args args; Ok (inr (SFun "" l true))
    | TLst _ | TSet _ => Exn
    end.

  (** evaluate_var and evaluate_num, parsing.cc 226-244. *)
  Definition evaluate_var (t : tterm) : res symbol :=
    v ← evaluate false t; match v with inl _ => Exn | inr s => Ok s end.
  Definition evaluate_num (t : tterm) : res Qc :=
    v ← evaluate true t; match v with inl q => Ok q | inr _ => Exn end.

  (** Clingo::Number(0) marks a constant; is_invalid, parsing.cc 46-48. *)
  Definition unit_sym : symbol := SNum 0.
  Definition is_invalid (s : symbol) : bool := match s with SNum z => (z =? 0)%Z | _ => false end.

  Notation terms := (list (Qc * symbol)).
  Definition neg_terms (ts : terms) : terms := map (fun t => (- t.1, t.2)%Qc) ts.

  (** parse_diff_elem, parsing.cc 246-276. *)
  Definition diff_term (k : Qc) (x : Qc + symbol) : Qc * symbol :=
    match x with inl q => ((k * q)%Qc, unit_sym) | inr s => (k, s) end.
  Definition parse_diff_elem (t : tterm) : res terms :=
    match t with
    | TFun n [a; b] =>
        if String.eqb n "-" then
          x ← evaluate true a; y ← evaluate true b; Ok [diff_term 1%Qc x; diff_term (-(1))%Qc y]
        else Exn
    | _ => Exn
    end.

  (** the product of two lists of terms, parsing.cc 303-309. *)
  Fixpoint mul_row (l : Qc * symbol) (rhs : terms) : res terms :=
    match rhs with
    | [] => Ok []
    | r :: rhs' =>
        if is_invalid l.2 || is_invalid r.2 then
          x ← mul_row l rhs'; Ok ((l.1 * r.1, if is_invalid l.2 then r.2 else l.2)%Qc :: x)
        else Exn
    end.
  Fixpoint mul_terms (lhs rhs : terms) : res terms :=
    match lhs with
    | [] => Ok []
    | l :: lhs' => x ← mul_row l rhs; y ← mul_terms lhs' rhs; Ok (x ++ y)
    end.

  (** parse_sum_elem, parsing.cc 278-331. *)
  Fixpoint parse_sum_elem (t : tterm) : res terms :=
    let var := s ← evaluate_var t; Ok [(1%Qc, s)] in
    match t with
    | TNum z => Ok [(qofz z, unit_sym)]
    | TFun n args =>
        match args with
        | [a; b] =>
            if String.eqb n "+" then x ← parse_sum_elem a; y ← parse_sum_elem b; Ok (x ++ y)
            else if String.eqb n "-" then x ← parse_sum_elem a; y ← parse_sum_elem b; Ok (x ++ neg_terms y)
            else if String.eqb n "*" then x ← parse_sum_elem a; y ← parse_sum_elem b; mul_terms x y
            else if String.eqb n "/" then
              x ← parse_sum_elem a; q ← evaluate_num b;
              if decide (q = 0%Qc) then Exn else Ok (map (fun t => (t.1 / q, t.2)%Qc) x)
            else var
        | [a] =>
            if String.eqb n "-" then x ← parse_sum_elem a; Ok (neg_terms x)
            else if String.eqb n "+" then parse_sum_elem a
            else var
        | _ => var
        end
    | TSym n =>
        if is_string n then match as_num n with Some q => Ok [(q, unit_sym)] | None => var end else var
    | TTup _ => var
    | TLst _ | TSet _ => Exn
    end.

  (** VarMap, parsing.hh 55: std::map from (symbol, condition) to the auxiliary
      variable. *)
  Definition auxmap : Type := list ((symbol * Z) * symbol).
  Fixpoint aux_find (k : symbol * Z) (m : auxmap) : option symbol :=
    match m with
    | [] => None
    | (k', s) :: r => if decide (k = k') then Some s else aux_find k r
    end.

  (** One term of an element with a condition, parsing.cc 342-350; [cid] is
      the condition, [mapper] maps conditions to solver literals. *)
  Definition cond_term (mapper : Z -> Z) (cid : Z) (t : Qc * symbol) (aux : auxmap) (iqs : list (ineq symbol))
      : res (auxmap * list (ineq symbol) * (Qc * symbol)) :=
    let n := (Z.of_nat (length aux) + 1)%Z in
    if (2147483647 <? n)%Z then Exn     (* safe_cast *)
    else
      match aux_find (t.2, cid) aux with
      | Some a => Ok (aux, iqs, (t.1, a))
      | None =>
          let a := SNum n in
          let lit := mapper cid in
          Ok (aux ++ [((t.2, cid), a)],
              iqs ++ [Ineq [(1%Qc, a)] 0%Qc Req (- lit)%Z; Ineq [(1%Qc, a); ((-(1))%Qc, t.2)] 0%Qc Req lit],
              (t.1, a))
      end.
  Fixpoint cond_terms (mapper : Z -> Z) (cid : Z) (ts : terms) (aux : auxmap) (iqs : list (ineq symbol))
      : res (auxmap * list (ineq symbol) * terms) :=
    match ts with
    | [] => Ok (aux, iqs, [])
    | t :: r =>
        '(aux1, iqs1, t') ← cond_term mapper cid t aux iqs;
        '(aux2, iqs2, r') ← cond_terms mapper cid r aux1 iqs1;
        Ok (aux2, iqs2, t' :: r')
    end.
  (** parse_sum_elems, parsing.cc 333-356. *)
  Fixpoint parse_sum_elems (mapper : Z -> Z) (es : list telem) (aux : auxmap) (iqs : list (ineq symbol))
      : res (auxmap * list (ineq symbol) * terms) :=
    match es with
    | [] => Ok (aux, iqs, [])
    | e :: es' =>
        match te_tuple e with
        | [t] =>
            x ← parse_sum_elem t;
            '(aux1, iqs1, x') ← (match te_cond e with [] => Ok (aux, iqs, x) | _ => cond_terms mapper (te_cid e) x aux iqs end);
            '(aux2, iqs2, y) ← parse_sum_elems mapper es' aux1 iqs1;
            Ok (aux2, iqs2, x' ++ y)
        | _ => Exn
        end
    end.

  (** simplify, parsing.cc 358-380.  [done]: the terms already visited;
      cos finds a term iff one with the same variable was visited. *)
  Fixpoint add_to (c : Qc) (x : symbol) (done : terms) : option terms :=
    match done with
    | [] => None
    | t :: r =>
        if decide (x = t.2) then Some ((t.1 + c, t.2)%Qc :: r)
        else match add_to c x r with Some r' => Some (t :: r') | None => None end
    end.
  Fixpoint combine (ts done : terms) (rhs : Qc) : terms * Qc :=
    match ts with
    | [] => (done, rhs)
    | t :: r =>
        if is_invalid t.2 then combine r (done ++ [(0%Qc, t.2)]) (rhs - t.1)%Qc
        else match add_to t.1 t.2 done with
             | Some done' => combine r (done' ++ [(0%Qc, t.2)]) rhs
             | None => combine r (done ++ [t]) rhs
             end
    end.
  Definition simplify (ts : terms) : terms * Qc :=
    let '(done, rhs) := combine ts [] 0%Qc in (filter (fun t => t.1 <> 0%Qc) done, rhs).

  (** evaluate_cmp, parsing.cc 50-65. *)
  Definition evaluate_cmp (r : string) : res rel :=
    if String.eqb r "<=" then Ok Rle else if String.eqb r ">=" then Ok Rge
    else if String.eqb r "=" then Ok Req else if String.eqb r ">" then Ok Rgt
    else if String.eqb r "<" then Ok Rlt else Exn.

  (** match, parsing.cc 30-34, with arity 0. *)
  Definition match0 (t : tterm) (name : string) : bool :=
    match t with TSym n => String.eqb n name | TFun n [] => String.eqb n name | _ => false end.

  (** The vectors and maps evaluate_theory extends: aux_map_, iqs_ and
      objective_ of the propagator. *)
  Record pstate := PState { ps_aux : auxmap; ps_iqs : list (ineq symbol); ps_obj : terms }.
  Definition new_pstate : pstate := PState [] [] [].

  (** One atom: the body of the loop of parse_theory, parsing.cc 385-431. *)
  Definition parse_atom (mapper : Z -> Z) (a : tatom) (st : pstate) : res pstate :=
    if match0 (ta_term a) "dom" then
      match ta_elems a, ta_guard a with
      | [e], Some (_, g) =>
          match te_tuple e, te_cond e with
          | [TFun n [l; u]], [] =>
              if String.eqb n ".." then
                x ← evaluate_var g;
                hi ← evaluate_num u; lo ← evaluate_num l;
                Ok (PState (ps_aux st) (ps_iqs st ++ [Ineq [(1%Qc, x)] hi Rle (mapper (ta_lit a)); Ineq [(1%Qc, x)] lo Rge (mapper (ta_lit a))]) (ps_obj st))
              else Exn
          | _, _ => Exn
          end
      | _, _ => Exn
      end
    else if match0 (ta_term a) "diff" then
      match ta_guard a, ta_elems a with
      | Some (r, g), [e] =>
          match te_tuple e, te_cond e with
          | [t], [] =>
              x ← parse_diff_elem t; y ← parse_sum_elem g;
              let '(lhs, rhs) := simplify (x ++ neg_terms y) in
              rel ← evaluate_cmp r;
              Ok (PState (ps_aux st) (ps_iqs st ++ [Ineq lhs rhs rel (mapper (ta_lit a))]) (ps_obj st))
          | _, _ => Exn
          end
      | _, _ => Exn
      end
    else if match0 (ta_term a) "sum" then
      match ta_guard a with
      | Some (r, g) =>
          '(aux, iqs, x) ← parse_sum_elems mapper (ta_elems a) (ps_aux st) (ps_iqs st);
          y ← parse_sum_elem g;
          let '(lhs, rhs) := simplify (x ++ neg_terms y) in
          rel ← evaluate_cmp r;
          Ok (PState aux (iqs ++ [Ineq lhs rhs rel (mapper (ta_lit a))]) (ps_obj st))
      | None => Exn
      end
    else if match0 (ta_term a) "minimize" || match0 (ta_term a) "maximize" then
      '(aux, iqs, x) ← parse_sum_elems mapper (ta_elems a) (ps_aux st) (ps_iqs st);
      Ok (PState aux iqs (ps_obj st ++ (if match0 (ta_term a) "minimize" then neg_terms x else x)))
    else Ok st.
  Fixpoint parse_atoms (mapper : Z -> Z) (l : list tatom) (st : pstate) : res pstate :=
    match l with [] => Ok st | a :: r => st1 ← parse_atom mapper a st; parse_atoms mapper r st1 end.
  (** parse_theory / evaluate_theory, parsing.cc 382-440. *)
  Definition evaluate_theory (mapper : Z -> Z) (l : list tatom) (st : pstate) : res pstate :=
    st1 ← parse_atoms mapper l st;
    let '(obj, rhs) := simplify (ps_obj st1) in
    if decide (rhs = 0%Qc) then Ok (PState (ps_aux st1) (ps_iqs st1) obj) else Exn.
End evaluate.
