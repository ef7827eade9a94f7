(** * The simplex solver: model of class Solver<Value> (solving.hh, solving.cc)

    The template parameter is the class [Value] of Num.v.  Every access to a
    container goes through [at_], every pointer access through [deref]; the
    loops without a structural bound take a fuel argument.

    Interaction with clingo: the parts of Clingo::Assignment that are constant
    during a call (decision level, level of a literal) are a record [asg]; the
    replies of clingo that can change during a call (is_false, add_clause,
    propagate) are functions of the list of clauses handed to clingo so far. *)

From Verif Require Import Num Tableau.

(** enum class StoreSATAssignments / SelectionHeuristic / PropagateMode
    (solving.hh 20-36). *)
Inductive store_mode := StoreNo | StorePartial | StoreTotal.
Inductive select_mode := SelectNone | SelectMatch | SelectConflict.
Inductive prop_mode := PropNone | PropChanged | PropFull.

(** struct Options (solving.hh 38-44). *)
Record options := Options {
  o_select : select_mode;
  o_store : store_mode;
  o_global : option RatQ;
  o_pmode : prop_mode;
  o_pconf : bool;
}.
Definition default_options : options := Options SelectNone StoreNo None PropNone false.

(** The constant part of Clingo::Assignment during one call. *)
Record asg := Asg { a_level : Z -> nat; a_dl : nat }.

(** The changing part: replies as functions of the clauses added so far.
    [h_false log l]: is_false(l); [h_reply log]: result of
    add_clause(last log) && propagate(). *)
Record host := Host { h_false : list (list Z) -> Z -> bool; h_reply : list (list Z) -> bool }.

Section model.
  Context {V : Type} `{Value V}.

  (** enum class BoundRelation (solving.hh 82-86). *)
  Inductive brel := BLe | BGe | BEq.

  (** struct Bound (solving.hh 91-101).  [b_id] identifies the object: two
      pointers to bounds are equal iff the ids are. *)
  Record bound := Bound { b_id : nat; b_val : V; b_var : nat; b_lit : Z; b_rel : brel }.

  (** struct Variable (solving.hh 103-141). *)
  Record var := Var {
    v_lower : option bound;
    v_upper : option bound;
    v_val : V;
    v_index : nat;
    v_rindex : nat;
    v_level : nat;
    v_bounds : list bound;
    v_queued : bool;
    v_prop : bool;
  }.

  (** struct TrailOffset (solving.hh 142-146). *)
  Record toff := TOff { o_level : nat; o_bound : nat; o_asg : nat }.

  (** struct Objective (solving.hh 151-165). *)
  Record objective := Objective {
    ob_var : nat;
    ob_bound_var : nat;
    ob_gen : nat;
    ob_active : bool;
    ob_discard : bool;
    ob_bounded : bool;
  }.

  (** The members of class Solver (solving.hh 244-272).  bounds_ is an
      unordered_multimap; the model keeps its elements in insertion order.
      conflicts_ is a priority queue with the smallest index on top; the model
      keeps a sorted list. *)
  Record solver := Solver {
    s_bounds : list bound;
    s_btrail : list (nat * brel * option bound);
    s_atrail : list (nat * nat * V);
    s_offs : list toff;
    s_tab : tableau;
    s_vars : list var;
    s_conf : list nat;
    s_clause : list Z;
    s_pq : list nat;
    s_pivots : nat;
    s_props : nat;
    s_nn : nat;
    s_nb : nat;
    s_obj : objective;
  }.

  Definition set_bounds x s := Solver x (s_btrail s) (s_atrail s) (s_offs s) (s_tab s) (s_vars s) (s_conf s) (s_clause s) (s_pq s) (s_pivots s) (s_props s) (s_nn s) (s_nb s) (s_obj s).
  Definition set_btrail x s := Solver (s_bounds s) x (s_atrail s) (s_offs s) (s_tab s) (s_vars s) (s_conf s) (s_clause s) (s_pq s) (s_pivots s) (s_props s) (s_nn s) (s_nb s) (s_obj s).
  Definition set_atrail x s := Solver (s_bounds s) (s_btrail s) x (s_offs s) (s_tab s) (s_vars s) (s_conf s) (s_clause s) (s_pq s) (s_pivots s) (s_props s) (s_nn s) (s_nb s) (s_obj s).
  Definition set_offs x s := Solver (s_bounds s) (s_btrail s) (s_atrail s) x (s_tab s) (s_vars s) (s_conf s) (s_clause s) (s_pq s) (s_pivots s) (s_props s) (s_nn s) (s_nb s) (s_obj s).
  Definition set_tab x s := Solver (s_bounds s) (s_btrail s) (s_atrail s) (s_offs s) x (s_vars s) (s_conf s) (s_clause s) (s_pq s) (s_pivots s) (s_props s) (s_nn s) (s_nb s) (s_obj s).
  Definition set_vars x s := Solver (s_bounds s) (s_btrail s) (s_atrail s) (s_offs s) (s_tab s) x (s_conf s) (s_clause s) (s_pq s) (s_pivots s) (s_props s) (s_nn s) (s_nb s) (s_obj s).
  Definition set_conf x s := Solver (s_bounds s) (s_btrail s) (s_atrail s) (s_offs s) (s_tab s) (s_vars s) x (s_clause s) (s_pq s) (s_pivots s) (s_props s) (s_nn s) (s_nb s) (s_obj s).
  Definition set_clause x s := Solver (s_bounds s) (s_btrail s) (s_atrail s) (s_offs s) (s_tab s) (s_vars s) (s_conf s) x (s_pq s) (s_pivots s) (s_props s) (s_nn s) (s_nb s) (s_obj s).
  Definition set_pq x s := Solver (s_bounds s) (s_btrail s) (s_atrail s) (s_offs s) (s_tab s) (s_vars s) (s_conf s) (s_clause s) x (s_pivots s) (s_props s) (s_nn s) (s_nb s) (s_obj s).
  Definition set_stats x y s := Solver (s_bounds s) (s_btrail s) (s_atrail s) (s_offs s) (s_tab s) (s_vars s) (s_conf s) (s_clause s) (s_pq s) x y (s_nn s) (s_nb s) (s_obj s).
  Definition set_dims x y s := Solver (s_bounds s) (s_btrail s) (s_atrail s) (s_offs s) (s_tab s) (s_vars s) (s_conf s) (s_clause s) (s_pq s) (s_pivots s) (s_props s) x y (s_obj s).
  Definition set_obj x s := Solver (s_bounds s) (s_btrail s) (s_atrail s) (s_offs s) (s_tab s) (s_vars s) (s_conf s) (s_clause s) (s_pq s) (s_pivots s) (s_props s) (s_nn s) (s_nb s) x.

  Definition vset_lower x v := Var x (v_upper v) (v_val v) (v_index v) (v_rindex v) (v_level v) (v_bounds v) (v_queued v) (v_prop v).
  Definition vset_upper x v := Var (v_lower v) x (v_val v) (v_index v) (v_rindex v) (v_level v) (v_bounds v) (v_queued v) (v_prop v).
  Definition vset_val x l v := Var (v_lower v) (v_upper v) x (v_index v) (v_rindex v) l (v_bounds v) (v_queued v) (v_prop v).
  Definition vset_index x v := Var (v_lower v) (v_upper v) (v_val v) x (v_rindex v) (v_level v) (v_bounds v) (v_queued v) (v_prop v).
  Definition vset_rindex x v := Var (v_lower v) (v_upper v) (v_val v) (v_index v) x (v_level v) (v_bounds v) (v_queued v) (v_prop v).
  Definition vset_bounds x v := Var (v_lower v) (v_upper v) (v_val v) (v_index v) (v_rindex v) (v_level v) x (v_queued v) (v_prop v).
  Definition vset_queued x v := Var (v_lower v) (v_upper v) (v_val v) (v_index v) (v_rindex v) (v_level v) (v_bounds v) x (v_prop v).
  Definition vset_prop x v := Var (v_lower v) (v_upper v) (v_val v) (v_index v) (v_rindex v) (v_level v) (v_bounds v) (v_queued v) x.

  (** apply a change to variables_[x] (callers have checked the index). *)
  Definition upd_var (x : nat) (f : var -> var) (s : solver) : solver :=
    set_vars (alter f x (s_vars s)) s.

  Definition obj_set_bounded b o := Objective (ob_var o) (ob_bound_var o) (ob_gen o) (ob_active o) (ob_discard o) b.
  Definition obj_set_gen g o := Objective (ob_var o) (ob_bound_var o) g (ob_active o) (ob_discard o) (ob_bounded o).
  Definition obj_set_discard b o := Objective (ob_var o) (ob_bound_var o) (ob_gen o) (ob_active o) b (ob_bounded o).

  (** Default member values (solving.hh 122-140, 151-165, 244-272). *)
  Definition new_var (i : nat) : var := Var None None vzero i i 0 [] false false.
  Definition new_obj : objective := Objective 0 0 0 false false true.
  Definition empty_solver : solver := Solver [] [] [] [] empty_tab [] [] [] [] 0 0 0 0 new_obj.

  (** bound_rel, solving.cc 67-82. *)
  Definition bound_rel (r : rel) : brel :=
    match r with Rlt | Rle => BLe | Rgt | Rge => BGe | Req => BEq end.

  (** Bound::compare, solving.cc 149-162. *)
  Definition bcompare (b : bound) (v : V) : bool :=
    match b_rel b with
    | BEq => veqb v (b_val b)
    | BLe => vleb v (b_val b)
    | BGe => vgeb v (b_val b)
    end.

  (** Bound::conflicts, solving.cc 164-177 (the recursive call in the case
      BEq happens at most once because the other relation is then not BEq). *)
  Definition bconflicts1 (b c : bound) : bool :=
    match b_rel b with
    | BEq => false
    | BLe => match b_rel c with BLe => false | _ => vltb (b_val b) (b_val c) end
    | BGe => match b_rel c with BGe => false | _ => vltb (b_val c) (b_val b) end
    end.
  Definition bconflicts (b c : bound) : bool :=
    match b_rel b with
    | BEq => match b_rel c with BEq => negb (veqb (b_val b) (b_val c)) | _ => bconflicts1 c b end
    | _ => bconflicts1 b c
    end.

  (** [!has_upper() || value < upper()] and similar tests. *)
  Definition below_upper (v : var) (x : V) : bool :=
    match v_upper v with None => true | Some b => vltb x (b_val b) end.
  Definition above_lower (v : var) (x : V) : bool :=
    match v_lower v with None => true | Some b => vgtb x (b_val b) end.
  (** [has_lower() && value < lower()] *)
  Definition viol_lower (v : var) : bool :=
    match v_lower v with None => false | Some b => vltb (v_val v) (b_val b) end.
  Definition viol_upper (v : var) : bool :=
    match v_upper v with None => false | Some b => vgtb (v_val v) (b_val b) end.
  (** Variable::has_conflict, solving.cc 236-238. *)
  Definition has_conflict (v : var) : bool := viol_lower v || viol_upper v.

  (** [lower() <= upper()] if both exist (solving.cc 187, 203). *)
  Definition bounds_consistent (v : var) : bool :=
    match v_lower v, v_upper v with Some l, Some u => vleb (b_val l) (b_val u) | _, _ => true end.

  (** Variable::update_upper, solving.cc 179-188. *)
  Definition update_upper (a : asg) (b : bound) (x : nat) (s : solver) : res (solver * bool) :=
    v ← at_ (s_vars s) x;
    let s' :=
      if below_upper v (b_val b) then
        let push := match v_upper v with
                    | None => true
                    | Some u => a_level a (b_lit u) <? a_dl a
                    end in
        let s1 := if push then set_btrail (s_btrail s ++ [(b_var b, BLe, v_upper v)]) s else s in
        upd_var x (vset_upper (Some b)) s1
      else s in
    v' ← at_ (s_vars s') x;
    Ok (s', bounds_consistent v').

  (** overwrite the relation of bound_trail_.back() (solving.cc 198);
      back() of an empty vector is undefined behaviour. *)
  Definition trail_back_eq (t : list (nat * brel * option bound)) : res (list (nat * brel * option bound)) :=
    match last t with
    | None => UB
    | Some (x, _, b) => Ok (take (length t - 1) t ++ [(x, BEq, b)])
    end.

  Definition same_bound (o : option bound) (b : bound) : bool :=
    match o with Some c => b_id c =? b_id b | None => false end.

  (** Variable::update_lower, solving.cc 190-204. *)
  Definition update_lower (a : asg) (b : bound) (x : nat) (s : solver) : res (solver * bool) :=
    v ← at_ (s_vars s) x;
    s' ←
      if above_lower v (b_val b) then
        let push := match v_lower v with
                    | None => true
                    | Some l => a_level a (b_lit l) <? a_dl a
                    end in
        s1 ← (if push then
                if negb (same_bound (v_upper v) b)
                then Ok (set_btrail (s_btrail s ++ [(b_var b, BGe, v_lower v)]) s)
                else t ← trail_back_eq (s_btrail s); Ok (set_btrail t s)
              else Ok s);
        Ok (upd_var x (vset_lower (Some b)) s1)
      else Ok s;
    v' ← at_ (s_vars s') x;
    Ok (s', bounds_consistent v').

  (** Variable::update, solving.cc 206-220. *)
  Definition update_var (a : asg) (b : bound) (x : nat) (s : solver) : res (solver * bool) :=
    match b_rel b with
    | BLe => update_upper a b x s
    | BGe => update_lower a b x s
    | BEq => '(s1, ok) ← update_upper a b x s;
             if ok : bool then update_lower a b x s1 else Ok (s1, false)
    end.

  (** Variable::set_value, solving.cc 222-234. *)
  Definition set_value (x lvl : nat) (val : V) (add : bool) (s : solver) : res solver :=
    v ← at_ (s_vars s) x;
    let s1 := if negb (lvl =? v_level v)
              then set_atrail (s_atrail s ++ [(v_level v, x, v_val v)]) s else s in
    Ok (upd_var x (vset_val (if add then vadd (v_val v) val else val) lvl) s1).

  (** Solver::basic_ / non_basic_, solving.cc 244-252: the index of the variable. *)
  Definition basic_ (s : solver) (i : nat) : res nat :=
    v ← at_ (s_vars s) (i + s_nn s); Ok (v_index v).
  Definition non_basic_ (s : solver) (j : nat) : res nat :=
    v ← at_ (s_vars s) j; Ok (v_index v).

  (** conflicts_.emplace *)
  Fixpoint pq_insert (x : nat) (q : list nat) : list nat :=
    match q with
    | [] => [x]
    | y :: r => if x <=? y then x :: q else y :: pq_insert x r
    end.

  (** Solver::enqueue_, solving.cc 254-267. *)
  Definition enqueue (o : options) (i : nat) (s : solver) : res solver :=
    ii ← basic_ s i;
    xi ← at_ (s_vars s) ii;
    let s1 := if negb (v_queued xi) && has_conflict xi
              then upd_var ii (vset_queued true) (set_conf (pq_insert ii (s_conf s)) s) else s in
    match o_pmode o with
    | PropChanged =>
        vr ← at_ (s_vars s1) i;
        if v_prop vr then Ok s1
        else Ok (set_pq (s_pq s1 ++ [i]) (upd_var i (vset_prop true) s1))
    | _ => Ok s1
    end.

  (** Solver::update_, solving.cc 920-927. *)
  Definition update_ (o : options) (level j : nat) (v : V) (s : solver) : res solver :=
    jj ← non_basic_ s j;
    s1 ← update_col s_tab set_tab j (fun i a_ij d_i s =>
           xj ← at_ (s_vars s) jj;
           ii ← basic_ s i;
           s' ← set_value ii level (vdivz (vmulz (vsub v (v_val xj)) a_ij) d_i) true s;
           enqueue o i s') s;
    set_value jj level v false s1.

  (** Solver::pivot_, solving.cc 929-964. *)
  Definition pivot_ (o : options) (level i j : nat) (v : V) (s : solver) : res solver :=
    '(p, a_ij, d_i) ← unsafe_get (s_tab s) i j;
    ii ← basic_ s i;
    jj ← non_basic_ s j;
    xi ← at_ (s_vars s) ii;
    _ ← at_ (s_vars s) jj;
    let v_j := vmulz (vdivz (vsub v (v_val xi)) a_ij) d_i in
    s1 ← set_value ii level v false s;
    s2 ← set_value jj level v_j true s1;
    s3 ← update_col s_tab set_tab j (fun k a_kj d_k s =>
           if k =? i then Ok s
           else kk ← basic_ s k;
                s' ← set_value kk level (vdivz (vmulz v_j a_kj) d_k) true s;
                enqueue o k s') s2;
    xi3 ← at_ (s_vars s3) ii;
    xj3 ← at_ (s_vars s3) jj;
    let s4 := upd_var jj (vset_rindex (v_rindex xi3)) (upd_var ii (vset_rindex (v_rindex xj3)) s3) in
    ri ← at_ (s_vars s4) (i + s_nn s4);
    rj ← at_ (s_vars s4) j;
    let s5 := upd_var j (vset_index (v_index ri)) (upd_var (i + s_nn s4) (vset_index (v_index rj)) s4) in
    s6 ← enqueue o i s5;
    t ← tpivot (s_tab s6) i j p;
    Ok (set_stats (S (s_pivots s6)) (s_props s6) (set_tab t s6)).

  (** Result of select_: State and the references ret_i, ret_j, ret_v
      (solving.hh 149, 236). *)
  Inductive sel := SelSat | SelUnsat | SelPivot (i j : nat) (v : V).

  (** The row scan in select_, solving.cc 986-1007: state (kk, ret_j, clause). *)
  Definition select_cell (s : solver) (lower : bool) (j : nat) (a_ij d_i : Z)
      (st : nat * nat * list Z) : res (nat * nat * list Z) :=
    let '(kk, rj, cl) := st in
    vj ← at_ (s_vars s) j;
    let jj := v_index vj in
    if kk <? jj then Ok st
    else
      x_j ← at_ (s_vars s) jj;
      let upper := Bool.eqb lower (Bool.eqb (0 <? a_ij)%Z (0 <? d_i)%Z) in
      if upper then
        match v_upper x_j with
        | Some b => if vgeb (v_val x_j) (b_val b) then Ok (kk, rj, cl ++ [(- b_lit b)%Z]) else Ok (jj, j, cl)
        | None => Ok (jj, j, cl)
        end
      else
        match v_lower x_j with
        | Some b => if vleb (v_val x_j) (b_val b) then Ok (kk, rj, cl ++ [(- b_lit b)%Z]) else Ok (jj, j, cl)
        | None => Ok (jj, j, cl)
        end.

  (** Solver::select_, solving.cc 965-1019; recursion over the queue.  The top
      element stays in the queue when a conflict is found. *)
  Fixpoint select_loop (q : list nat) (s : solver) : res (sel * solver) :=
    match q with
    | [] => Ok (SelSat, set_conf [] s)
    | ii :: q' =>
        xi ← at_ (s_vars s) ii;
        let s1 := upd_var ii (vset_queued false) s in
        if v_rindex xi <? s_nn s then select_loop q' s1
        else
          let i := v_rindex xi - s_nn s in
          let lower := viol_lower xi in
          if lower || viol_upper xi then
            b ← deref (if lower then v_lower xi else v_upper xi);
            '(kk, rj, cl) ← update_row (s_tab s1) i (select_cell s1 lower) (length (s_vars s1), 0, [(- b_lit b)%Z]);
            let s2 := set_conf q (set_clause cl s1) in
            if kk =? length (s_vars s1) then Ok (SelUnsat, s2)
            else Ok (SelPivot i rj (b_val b), s2)
          else select_loop q' s1
    end.
  Definition select_ (s : solver) : res (sel * solver) := select_loop (s_conf s) s.

  (** Solver::update_bound_, solving.cc 597-617.  The boolean is the result;
      if it is false the clause given to add_clause is in s_clause. *)
  Definition update_bound (o : options) (a : asg) (b : bound) (s : solver) : res (solver * bool) :=
    '(s1, ok) ← update_var a b (b_var b) s;
    x ← at_ (s_vars s1) (b_var b);
    if negb ok then
      u ← deref (v_upper x);
      l ← deref (v_lower x);
      Ok (set_clause [(- b_lit u)%Z; (- b_lit l)%Z] s1, false)
    else if v_rindex x <? s_nn s1 then
      if viol_lower x then
        l ← deref (v_lower x);
        s2 ← update_ o (a_dl a) (v_rindex x) (b_val l) s1; Ok (s2, true)
      else if viol_upper x then
        u ← deref (v_upper x);
        s2 ← update_ o (a_dl a) (v_rindex x) (b_val u) s1; Ok (s2, true)
      else Ok (s1, true)
    else
      s2 ← enqueue o (v_rindex x - s_nn s1) s1; Ok (s2, true).

  (** bounds_.find(lit) ... (solving.cc 679, 1030, 1037). *)
  Definition find_bounds (s : solver) (lit : Z) : list bound :=
    List.filter (fun b => (b_lit b =? lit)%Z) (s_bounds s).

  (** The loops over literals and bounds, solving.cc 678-686. *)
  Fixpoint apply_bounds (o : options) (a : asg) (bs : list bound) (s : solver) : res (solver * bool) :=
    match bs with
    | [] => Ok (s, true)
    | b :: bs' => '(s1, ok) ← update_bound o a b s;
                  if ok : bool then apply_bounds o a bs' s1 else Ok (s1, false)
    end.
  Definition apply_lits (o : options) (a : asg) (lits : list Z) (s : solver) : res (solver * bool) :=
    apply_bounds o a (List.concat (map (find_bounds s) lits)) s.

  (** The simplex loop, solving.cc 692-709, without the final propagate_. *)
  Fixpoint simplex_loop (fuel : nat) (o : options) (level : nat) (s : solver) : res (solver * bool) :=
    match fuel with
    | 0 => Fuel
    | S fuel =>
        '(r, s1) ← select_ s;
        match r with
        | SelSat => Ok (s1, true)
        | SelUnsat => Ok (s1, false)
        | SelPivot i j v => s2 ← pivot_ o level i j v s1; simplex_loop fuel o level s2
        end
    end.

  (** Solver::store_sat_assignment, solving.cc 583-595. *)
  Fixpoint reset_levels (t : list (nat * nat * V)) (s : solver) : res solver :=
    match t with
    | [] => Ok s
    | (_, x, _) :: t' => v ← at_ (s_vars s) x;
                         reset_levels t' (upd_var x (fun v => vset_val (v_val v) 0 v) s)
    end.
  (** from the back, set assignment to 0 until one that is already 0 *)
  Fixpoint reset_offs_rev (l : list toff) : list toff :=
    match l with
    | [] => []
    | f :: r => if 0 <? o_asg f then TOff (o_level f) (o_bound f) 0 :: reset_offs_rev r else f :: r
    end.
  Definition store_sat (s : solver) : res solver :=
    s1 ← reset_levels (s_atrail s) s;
    Ok (set_atrail [] (set_offs (rev (reset_offs_rev (rev (s_offs s1)))) s1)).

  (** Solver::solve up to the call of propagate_, solving.cc 665-709.
      Result [true]: satisfiable.  Result [false]: s_clause has been given to
      add_clause. *)
  Definition push_offset (a : asg) (s : solver) : solver :=
    let push := match last (s_offs s) with None => true | Some f => o_level f <? a_dl a end in
    if push then set_offs (s_offs s ++ [TOff (a_dl a) (length (s_btrail s)) (length (s_atrail s))]) s else s.
  Definition solve_core (fuel : nat) (o : options) (a : asg) (lits : list Z) (s : solver) : res (solver * bool) :=
    '(s1, ok) ← apply_lits o a lits (push_offset a s);
    if negb ok then Ok (s1, false)
    else
      '(s2, ok2) ← simplex_loop fuel o (a_dl a) s1;
      if (ok2 : bool) then
        match o_store o with
        | StorePartial => s3 ← store_sat s2; Ok (s3, true)
        | _ => Ok (s2, true)
        end
      else Ok (s2, false).

  (** The first pass of propagate_row, solving.cc 734-746:
      (lower available, upper available). *)
  Definition prop_cell1 (s : solver) (j : nat) (a_ij d_i : Z) (st : bool * bool) : res (bool * bool) :=
    jj ← non_basic_ s j;
    x_j ← at_ (s_vars s) jj;
    let pos := Bool.eqb (0 <? a_ij)%Z (0 <? d_i)%Z in
    let '(lo, up) := st in
    let lo' := match (if pos then v_lower x_j else v_upper x_j) with None => false | Some _ => lo end in
    let up' := match (if pos then v_upper x_j else v_lower x_j) with None => false | Some _ => up end in
    Ok (lo', up').

  (** The lambdas update_lower and update_upper, solving.cc 749-760, for one
      of the two sums: state is (value, clause). *)
  Definition prop_add (ob : option bound) (a_ij d_i : Z) (st : option V * list Z) : option V * list Z :=
    match st.1, ob with
    | Some v, Some b => (Some (vadd v (vdivz (vmulz (b_val b) a_ij) d_i)), st.2 ++ [(- b_lit b)%Z])
    | _, _ => st
    end.
  (** The second pass, solving.cc 747-771. *)
  Definition prop_cell2 (s : solver) (j : nat) (a_ij d_i : Z)
      (st : (option V * list Z) * (option V * list Z)) : res ((option V * list Z) * (option V * list Z)) :=
    jj ← non_basic_ s j;
    x_j ← at_ (s_vars s) jj;
    if Bool.eqb (0 <? a_ij)%Z (0 <? d_i)%Z
    then Ok (prop_add (v_lower x_j) a_ij d_i st.1, prop_add (v_upper x_j) a_ij d_i st.2)
    else Ok (prop_add (v_upper x_j) a_ij d_i st.1, prop_add (v_lower x_j) a_ij d_i st.2).

  (** One of the two loops over y_i.bounds, solving.cc 773-800; [test] selects
      the bounds the derived value contradicts.  State: solver, clause log. *)
  Fixpoint prop_bounds (h : host) (test : bound -> bool) (clause : list Z) (bs : list bound)
      (s : solver) (log : list (list Z)) : solver * list (list Z) * bool :=
    match bs with
    | [] => (s, log, true)
    | b :: bs' =>
        if test b && negb (h_false h log (b_lit b)) then
          let log' := log ++ [clause ++ [(- b_lit b)%Z]] in
          let s' := set_stats (s_pivots s) (S (s_props s)) s in
          if h_reply h log' then prop_bounds h test clause bs' s' log' else (s', log', false)
        else prop_bounds h test clause bs' s log
    end.

  (** propagate_row, solving.cc 729-802. *)
  Definition prop_row (h : host) (i : nat) (s : solver) (log : list (list Z)) : res (solver * list (list Z) * bool) :=
    _ ← at_ (s_vars s) i;
    let s := upd_var i (vset_prop false) s in
    '(lo, up) ← update_row (s_tab s) i (prop_cell1 s) (true, true);
    if negb up && negb lo then Ok (s, log, true)
    else
      '(l, u) ← update_row (s_tab s) i (prop_cell2 s)
          ((if lo then Some vzero else None, []), (if up then Some vzero else None, []));
      yi ← basic_ s i;
      y ← at_ (s_vars s) yi;
      let '(s1, log1, ok1) :=
        match u.1 with
        | Some uv => prop_bounds h (fun b => match b_rel b with BLe => false | _ => vgtb (b_val b) uv end) u.2 (v_bounds y) s log
        | None => (s, log, true)
        end in
      if negb ok1 then Ok (s1, log1, false)
      else
        match l.1 with
        | Some lv => Ok (prop_bounds h (fun b => match b_rel b with BGe => false | _ => vltb (b_val b) lv end) l.2 (v_bounds y) s1 log1)
        | None => Ok (s1, log1, true)
        end.

  (** the loops at the end of propagate_, solving.cc 803-818. *)
  Fixpoint prop_rows (h : host) (changed : bool) (is : list nat) (s : solver) (log : list (list Z))
      : res (solver * list (list Z) * bool) :=
    match is with
    | [] => Ok (s, log, true)
    | i :: is' =>
        '(s1, log1, ok) ← prop_row h i (if changed then set_pq is' s else s) log;
        if (ok : bool) then prop_rows h changed is' s1 log1 else Ok (s1, log1, false)
    end.
  (** Solver::propagate_, solving.cc 712-819. *)
  Definition propagate_ (h : host) (o : options) (s : solver) (log : list (list Z)) : res (solver * list (list Z) * bool) :=
    match o_pmode o with
    | PropNone => Ok (s, log, true)
    | PropChanged => prop_rows h true (s_pq s) s log
    | PropFull => prop_rows h false (seq 0 (s_nb s)) s log
    end.

  (** Solver::solve, solving.cc 665-710. *)
  Definition solve (fuel : nat) (h : host) (o : options) (a : asg) (lits : list Z) (s : solver)
      (log : list (list Z)) : res (solver * list (list Z) * bool) :=
    '(s1, ok) ← solve_core fuel o a lits s;
    if (ok : bool) then propagate_ h o s1 log
    else Ok (s1, log ++ [s_clause s1], false).

  (** Solver::undo, solving.cc 821-866. *)
  Fixpoint undo_bounds (t : list (nat * brel * option bound)) (s : solver) : res solver :=
    match t with
    | [] => Ok s
    | (x, r, b) :: t' =>
        _ ← at_ (s_vars s) x;
        undo_bounds t' (upd_var x (match r with
                                   | BLe => vset_upper b
                                   | BGe => vset_lower b
                                   | BEq => fun v => vset_lower b (vset_upper b v)
                                   end) s)
    end.
  Fixpoint undo_values (t : list (nat * nat * V)) (s : solver) : res solver :=
    match t with
    | [] => Ok s
    | (l, x, v) :: t' => _ ← at_ (s_vars s) x; undo_values t' (upd_var x (vset_val v l) s)
    end.
  Fixpoint clear_queue (q : list nat) (s : solver) : res solver :=
    match q with
    | [] => Ok (set_conf [] s)
    | x :: q' => _ ← at_ (s_vars s) x; clear_queue q' (upd_var x (vset_queued false) s)
    end.
  Definition undo (s : solver) : res solver :=
    f ← deref (last (s_offs s));
    _ ← guard_ub (o_bound f <=? length (s_btrail s));
    s1 ← undo_bounds (drop (o_bound f) (s_btrail s)) s;
    let s2 := set_btrail (take (o_bound f) (s_btrail s1)) s1 in
    _ ← guard_ub (o_asg f <=? length (s_atrail s2));
    s3 ← undo_values (drop (o_asg f) (s_atrail s2)) s2;
    let s4 := set_atrail (take (o_asg f) (s_atrail s3)) s3 in
    s5 ← clear_queue (s_conf s4) s4;
    Ok (set_offs (take (length (s_offs s5) - 1) (s_offs s5)) s5).

  (** Selection of the entering variable in optimize, solving.cc 511-524:
      state (ee, pos_a_ze). *)
  Definition enter_cell (s : solver) (j : nat) (a_zj d_z : Z) (st : nat * bool) : res (nat * bool) :=
    let '(ee, pos) := st in
    vj ← at_ (s_vars s) j;
    let jj := v_index vj in
    if jj <? ee then
      x_j ← at_ (s_vars s) jj;
      let pos_a_zj := Bool.eqb (0 <? a_zj)%Z (0 <? d_z)%Z in
      if (if pos_a_zj then below_upper x_j (v_val x_j) else above_lower x_j (v_val x_j))
      then Ok (jj, pos_a_zj) else Ok st
    else Ok st.

  (** Selection of the leaving variable, solving.cc 534-561.  The state keeps
      the tableau (update_col may compact the column) and the best candidate
      (ll, v_e, bound value). *)
  Definition leave_cell (s : solver) (ee : nat) (pos_a_ze : bool) (i : nat) (a_ie d_i : Z)
      (st : tableau * option (nat * V * V)) : res (tableau * option (nat * V * V)) :=
    yi ← basic_ s i;
    y_i ← at_ (s_vars s) yi;
    x_e ← at_ (s_vars s) ee;
    let pos_a_ie := Bool.eqb (0 <? a_ie)%Z (0 <? d_i)%Z in
    let increase := Bool.eqb pos_a_ie pos_a_ze in
    match (if increase then v_upper y_i else v_lower y_i) with
    | None => Ok st
    | Some b =>
        vr ← at_ (s_vars s) (i + s_nn s);
        let ii := v_index vr in
        let v := vadd (v_val x_e) (vmulz (vdivz (vsub (b_val b) (v_val y_i)) a_ie) d_i) in
        if (if pos_a_ze then negb (below_upper x_e v) else negb (above_lower x_e v)) then Ok st
        else
          let better := match st.2 with
                        | None => true
                        | Some (ll, v_e, _) => (if pos_a_ze then vltb v v_e else vgtb v v_e) || ((ii <? ll) && veqb v v_e)
                        end in
          if better then Ok (st.1, Some (ii, v, b_val b)) else Ok st
    end.

  (** One iteration of the loop in Solver::optimize, solving.cc 506-580;
      the boolean tells whether the function returned. *)
  Definition optimize_step (o : options) (s : solver) : res (solver * bool) :=
    xz ← at_ (s_vars s) (ob_var (s_obj s));
    let z := v_rindex xz - s_nn s in
    '(ee, pos) ← update_row (s_tab s) z (enter_cell s) (length (s_vars s), false);
    if ee =? length (s_vars s) then Ok (set_obj (obj_set_bounded true (s_obj s)) s, true)
    else
      x_e ← at_ (s_vars s) ee;
      let e := v_rindex x_e in
      '(t, cand) ← update_col fst (fun t st => (t, st.2)) e (leave_cell s ee pos) (s_tab s, None);
      let s1 := set_tab t s in
      let level := match last (s_offs s1) with None => 0 | Some f => o_level f end in
      match cand with
      | Some (ll, _, b) =>
          xl ← at_ (s_vars s1) ll;
          s2 ← pivot_ o level (v_rindex xl - s_nn s1) e b s1; Ok (s2, false)
      | None =>
          match (if (pos : bool) then v_upper x_e else v_lower x_e) with
          | None => Ok (set_obj (obj_set_bounded false (s_obj s1)) s1, true)
          | Some b => s2 ← update_ o level e (b_val b) s1; Ok (s2, false)
          end
      end.
  Fixpoint optimize_loop (fuel : nat) (o : options) (s : solver) : res solver :=
    match fuel with
    | 0 => Fuel
    | S fuel => '(s1, fin) ← optimize_step o s; if (fin : bool) then Ok s1 else optimize_loop fuel o s1
    end.
  (** Solver::optimize, solving.cc 446-581. *)
  Definition optimize (fuel : nat) (o : options) (s : solver) : res solver :=
    if ob_active (s_obj s) then optimize_loop fuel o s else Ok s.

  (** Solver::assert_bound_, solving.cc 619-629: [lit] is the literal returned
      by add_literal; the unit clause is appended to the log. *)
  Definition assert_bound (h : host) (lit : Z) (v : V) (s : solver) (log : list (list Z)) : solver * list (list Z) * bool :=
    let b := Bound (length (s_bounds s)) v (ob_bound_var (s_obj s)) lit BGe in
    let s1 := set_clause [lit] (set_bounds (s_bounds s ++ [b]) s) in
    let log1 := log ++ [[lit]] in
    (s1, log1, h_reply h log1).

  (** Solver::get_value, solving.cc 269. *)
  Definition get_value (s : solver) (i : nat) : res V := v ← at_ (s_vars s) i; Ok (v_val v).
  (** Solver::get_objective, solving.cc 271-276. *)
  Definition get_objective (s : solver) : res (option (V * bool)) :=
    if ob_active (s_obj s) then v ← at_ (s_vars s) (ob_var (s_obj s)); Ok (Some (v_val v, ob_bounded (s_obj s)))
    else Ok None.

  (** Solver::adjust, solving.cc 1021-1044. *)
  Fixpoint adjust_loop (s : solver) (want : bool) (bs : list bound) : res bool :=
    match bs with
    | [] => Ok false
    | b :: bs' => v ← at_ (s_vars s) (b_var b);
                  if Bool.eqb (bcompare b (v_val v)) want then Ok true else adjust_loop s want bs'
    end.
  Definition adjust (o : options) (s : solver) (lit : Z) : res Z :=
    match o_select o with
    | SelectNone => Ok lit
    | m =>
        f1 ← adjust_loop s (match m with SelectConflict => true | _ => false end) (find_bounds s lit);
        if (f1 : bool) then Ok (- lit)%Z
        else
          f2 ← adjust_loop s (match m with SelectMatch => true | _ => false end) (find_bounds s (- lit)%Z);
          if (f2 : bool) then Ok (- lit)%Z else Ok lit
    end.

  (** ** Preparation *)

  (** struct Term { Rational co; Symbol var; } (problem.hh 21-25) and struct
      Inequality (problem.hh 26-31), over an abstract type of symbols. *)
  Record ineq (Sym : Type) := Ineq { q_lhs : list (Qc * Sym); q_rhs : Qc; q_rel : rel; q_lit : Z }.
  Global Arguments Ineq {Sym}.
  Global Arguments q_lhs {Sym}.
  Global Arguments q_rhs {Sym}.
  Global Arguments q_rel {Sym}.
  Global Arguments q_lit {Sym}.

  Context {Sym : Type}.

  (** Prepare::Prepare, solving.cc 110-117. *)
  Definition prep_init (n : nat) : solver :=
    set_dims n 0 (set_vars (map new_var (seq 0 n)) empty_solver).

  (** Prepare::get_non_basic, solving.cc 119-123 (a missing symbol is
      undefined behaviour), and Prepare::add_row, 133-143. *)
  Fixpoint prep_row (find : Sym -> option nat) (s : solver) (ts : list (Qc * Sym)) : res (list (nat * Qc)) :=
    match ts with
    | [] => Ok []
    | (co, x) :: ts' =>
        k ← deref (find x);
        v ← at_ (s_vars s) k;
        r ← prep_row find s ts';
        Ok ((v_rindex v, co) :: r)
    end.

  (** Prepare::add_basic, solving.cc 125-131. *)
  Definition add_basic (s : solver) : solver * nat :=
    (set_dims (s_nn s) (S (s_nb s)) (set_vars (s_vars s ++ [new_var (length (s_vars s))]) s), s_nb s).

  Definition set_cells (i : nat) (r : list (nat * Qc)) (s : solver) : solver :=
    set_tab (fold_left (fun t c => tset t i c.1 c.2) r (s_tab s)) s.

  Definition add_bound (v : V) (x : nat) (lit : Z) (r : brel) (s : solver) : solver :=
    set_bounds (s_bounds s ++ [Bound (length (s_bounds s)) v x lit r]) s.

  (** the test of an inequality with empty left-hand side, solving.cc 294-329:
      is a unit clause added? *)
  Definition empty_row_clause (r : rel) (rhs : Qc) : bool :=
    match r with
    | Rlt => vgeb rhs 0%Qc
    | Rle => vgtb rhs 0%Qc
    | Rgt => vleb rhs 0%Qc
    | Rge => vltb rhs 0%Qc
    | Req => negb (veqb rhs 0%Qc)
    end.

  (** The body of the loop over inequalities, solving.cc 285-346. *)
  Definition prep_ineq (h : host) (find : Sym -> option nat) (master : bool) (q : ineq Sym)
      (s : solver) (log : list (list Z)) : res (solver * list (list Z) * bool) :=
    if h_false h log (q_lit q) then Ok (s, log, true)
    else
      row ← prep_row find s (q_lhs q);
      match row with
      | [] =>
          if negb master then Ok (s, log, true)
          else if empty_row_clause (q_rel q) (q_rhs q) then
            let log' := log ++ [[(- q_lit q)%Z]] in Ok (s, log', h_reply h log')
          else Ok (s, log, true)
      | [(j, v)] =>
          let r := if vltb v 0%Qc then invert (q_rel q) else q_rel q in
          _ ← guard_ub (negb (veqb v 0%Qc));
          vj ← at_ (s_vars s) j;
          Ok (add_bound (vbound (q_rhs q / v)%Qc r) (v_index vj) (q_lit q) (bound_rel r) s, log, true)
      | _ =>
          let '(s1, i) := add_basic s in
          let s2 := add_bound (vbound (q_rhs q) (q_rel q)) (length (s_vars s1) - 1) (q_lit q) (bound_rel (q_rel q)) s1 in
          Ok (set_cells i row s2, log, true)
      end.
  Fixpoint prep_ineqs (h : host) (find : Sym -> option nat) (master : bool) (qs : list (ineq Sym))
      (s : solver) (log : list (list Z)) : res (solver * list (list Z) * bool) :=
    match qs with
    | [] => Ok (s, log, true)
    | q :: qs' =>
        '(s1, log1, ok) ← prep_ineq h find master q s log;
        if (ok : bool) then prep_ineqs h find master qs' s1 log1 else Ok (s1, log1, false)
    end.

  (** add objective function to tableau, solving.cc 348-364. *)
  Definition prep_objective (o : options) (find : Sym -> option nat) (obj : list (Qc * Sym)) (s : solver) : res solver :=
    match obj with
    | [] => Ok s
    | _ =>
        row ← prep_row find s obj;
        let add_row (s : solver) := let '(s1, i) := add_basic s in (set_cells i row s1, length (s_vars s1) - 1) in
        let '(s1, bv) := match o_global o with Some _ => add_row s | None => (s, ob_bound_var (s_obj s)) end in
        let '(s2, zv) := add_row s1 in
        Ok (set_obj (Objective zv bv (ob_gen (s_obj s2)) true (ob_discard (s_obj s2)) (ob_bounded (s_obj s2))) s2)
    end.

  (** solving.cc 366-368. *)
  Fixpoint prep_enqueue (o : options) (is : list nat) (s : solver) : res solver :=
    match is with
    | [] => Ok s
    | i :: is' => s1 ← enqueue o i s; prep_enqueue o is' s1
    end.
  (** solving.cc 370-372. *)
  Fixpoint prep_register (bs : list bound) (s : solver) : res solver :=
    match bs with
    | [] => Ok s
    | b :: bs' => v ← at_ (s_vars s) (b_var b);
                  prep_register bs' (upd_var (b_var b) (vset_bounds (v_bounds v ++ [b])) s)
    end.

  (** The binary clauses, solving.cc 377-397. *)
  Fixpoint static_inner (h : host) (ba : bound) (bs : list bound) (log : list (list Z)) : list (list Z) * bool :=
    match bs with
    | [] => (log, true)
    | bb :: bs' =>
        if negb (b_lit ba =? - b_lit bb)%Z && negb (h_false h log (b_lit bb)) && bconflicts ba bb then
          let log' := log ++ [[(- b_lit ba)%Z; (- b_lit bb)%Z]] in
          if h_reply h log' then static_inner h ba bs' log' else (log', false)
        else static_inner h ba bs' log
    end.
  Fixpoint static_outer (h : host) (bs : list bound) (log : list (list Z)) : list (list Z) * bool :=
    match bs with
    | [] => (log, true)
    | ba :: bs' => let '(log1, ok) := static_inner h ba bs' log in
                   if ok then static_outer h bs' log1 else (log1, false)
    end.
  Fixpoint static_vars (h : host) (vs : list var) (log : list (list Z)) : list (list Z) * bool :=
    match vs with
    | [] => (log, true)
    | v :: vs' => let '(log1, ok) := static_outer h (v_bounds v) log in
                  if ok then static_vars h vs' log1 else (log1, false)
    end.

  (** Solver::prepare, solving.cc 278-400.  Result: solver, clauses, success.
      [shuf] is the order in which the hash map bounds_ is traversed (any
      permutation); it fixes the order of Variable::bounds and of the bounds
      of one literal. *)
  Definition prepare (h : host) (o : options) (shuf : list bound -> list bound) (nsyms : nat) (find : Sym -> option nat)
      (qs : list (ineq Sym)) (obj : list (Qc * Sym)) (master : bool) (log : list (list Z))
      : res (solver * list (list Z) * bool) :=
    '(s1, log1, ok) ← prep_ineqs h find master qs (prep_init nsyms) log;
    if negb ok then Ok (s1, log1, false)
    else
      s2 ← prep_objective o find obj s1;
      s3 ← prep_enqueue o (seq 0 (s_nb s2)) s2;
      let s3 := set_bounds (shuf (s_bounds s3)) s3 in
      s4 ← prep_register (s_bounds s3) s3;
      if o_pconf o && master then
        let '(log2, ok2) := static_vars h (s_vars s4) log1 in Ok (s4, log2, ok2)
      else Ok (s4, log1, true).
End model.

Global Arguments solver V : clear implicits.
Global Arguments var V : clear implicits.
Global Arguments bound V : clear implicits.
