(** * The cross-check build: the assertions of the solver (solving.cc, tableau.cc)

    With CLINGOLPX_CROSSCHECK (util.hh 7-11, CMakeLists.txt) and without
    NDEBUG the code verifies itself while it runs: assert and assert_extra
    abort the program if their argument is false.  Solver.v models the release
    build.  This file models the functions with assertions: [f_x] is the
    function [f] of Solver.v, Propagator.v or World.v with every assertion in
    its place; a failing assertion gives UB (the program aborts).

    Not listed: solving.cc 88 (the relation of a bound is not strict if Value
    is Rational: hypothesis [representable] of a session, proved of the
    registered grammar in C46), 121 (the symbol is in the map: [deref] in
    prep_row), 705 (v is set: SelPivot carries the value). *)

From Verif Require Import Num Tableau Solver Propagator World.

(** assert(b), assert_extra(b): util.hh 7-11. *)
Definition assert_ (b : bool) : res unit := if b then Ok tt else UB.
(** assert_extra(f()) *)
Definition assert_extra (b : res bool) : res unit := v ← b; assert_ v.

(** for (index_t i{0}; i < n; ++i) { if (!f(i)) { return false; } } return true; *)
Fixpoint for_all (f : nat -> res bool) (l : list nat) : res bool :=
  match l with
  | [] => Ok true
  | i :: l' => b ← f i; if (b : bool) then for_all f l' else Ok false
  end.

(** ** Tableau::pivot with the assertions in tableau.cc 111 and 120 *)

(** All assertions hold in the merge of row i (cells [Ai]) and row k (cells
    [Ak]): the recursion follows [merge]. *)
Fixpoint merge_asserts (j : nat) (Ai : list cell) : list cell -> bool :=
  fix inner (Ak : list cell) : bool :=
    match Ai with
    | [] =>
        match Ak with
        | [] => true
        | (c, _) :: Ak' => negb (c =? j) && inner Ak'
        end
    | (c, _) :: Ai' =>
        match Ak with
        | [] => negb (c =? j) && merge_asserts j Ai' []
        | (c', _) :: Ak' =>
            if c <? c' then negb (c =? j) && merge_asserts j Ai' Ak
            else if c' <? c then negb (c' =? j) && inner Ak'
            else merge_asserts j Ai' Ak'
        end
    end.
(** The lambda in Tableau::pivot, tableau.cc 104-149. *)
Definition pivot_row_x (i j : nat) (Ai : list cell) (a_ij d_i : Z)
    (k : nat) (a_kj d_k : Z) (s : pstate) : res pstate :=
  if k =? i then Ok s else
  _ ← guard_ub (negb (Z.gcd a_ij a_kj =? 0)%Z);
  rk ← at_ (t_rows (p_tab s)) k;
  _ ← assert_ (merge_asserts j Ai (r_cells rk));
  pivot_row i j Ai a_ij d_i k a_kj d_k s.
(** Tableau::pivot, tableau.cc 84-187. *)
Definition tpivot_x (t : tableau) (i j p : nat) : res tableau :=
  ri ← at_ (t_rows t) i;
  let d_i := r_den ri in
  let Ai := map (fun c : cell => if c.1 =? j then c else (c.1, (- c.2)%Z)) (r_cells ri) in
  let t1 := Tab (<[i := Row d_i Ai]> (t_rows t)) (t_cols t) in
  aij ← at_ Ai p;
  s ← update_col p_tab (fun t' s => PState t' (p_sizes s)) j
        (pivot_row_x i j Ai aij.2 d_i) (PState t1 (replicate (length Ai) 0));
  ri' ← simplify_row (Row aij.2 (<[p := (aij.1, d_i)]> Ai));
  let t2 := Tab (<[i := ri']> (t_rows (p_tab s))) (t_cols (p_tab s)) in
  sort_cols (r_cells ri') (p_sizes s) t2.

Section checks.
  Context {V : Type} `{Value V}.
  Implicit Types s : solver V.

  (** Solver::basic_, non_basic_, solving.cc 244-252 *)
  Definition basic_x s (i : nat) : res nat := _ ← assert_ (i <? s_nb s); basic_ s i.
  Definition non_basic_x s (j : nat) : res nat := _ ← assert_ (j <? s_nn s); non_basic_ s j.

  (** Solver::check_tableau_, solving.cc 870-880: every row holds. *)
  Definition check_tableau_row s (i : nat) : res bool :=
    v ← update_row (s_tab s) i (fun j a_ij d_i v =>
          jj ← non_basic_x s j;
          x ← at_ (s_vars s) jj;
          Ok (vadd v (vdivz (vmulz (v_val x) a_ij) d_i))) vzero;
    ii ← basic_x s i;
    x ← at_ (s_vars s) ii;
    Ok (veqb v (v_val x)).
  Definition check_tableau s : res bool := for_all (check_tableau_row s) (seq 0 (s_nb s)).
  (** Solver::check_basic_, solving.cc 882-893: a basic variable outside of its
      bounds is queued. *)
  Definition check_basic s : res bool :=
    for_all (fun i =>
      ii ← basic_x s i;
      x ← at_ (s_vars s) ii;
      Ok (negb (viol_lower x && negb (v_queued x)) && negb (viol_upper x && negb (v_queued x)))) (seq 0 (s_nb s)).
  (** Solver::check_non_basic_, solving.cc 895-906: the non-basic variables
      are within their bounds. *)
  Definition check_non_basic s : res bool :=
    for_all (fun j =>
      jj ← non_basic_x s j;
      x ← at_ (s_vars s) jj;
      Ok (negb (viol_lower x) && negb (viol_upper x))) (seq 0 (s_nn s)).
  (** Solver::check_solution_, solving.cc 908-918: all variables are within
      their bounds and every row holds. *)
  Definition within_bounds (x : var V) : bool :=
    match v_lower x with None => true | Some b => negb (vgtb (b_val b) (v_val x)) end &&
    match v_upper x with None => true | Some b => negb (vgtb (v_val x) (b_val b)) end.
  Definition check_solution s : res bool :=
    if forallb within_bounds (s_vars s) then
      b ← check_tableau s;
      if (b : bool) then check_basic s else Ok false
    else Ok false.
  (** The three assertions in solving.cc 373-375, 688-690 and 960-962. *)
  Definition crosscheck s : res unit :=
    _ ← assert_extra (check_tableau s);
    _ ← assert_extra (check_basic s);
    assert_extra (check_non_basic s).

  (** Solver::enqueue_, solving.cc 254-267 (line 256 calls basic_). *)
  Definition enqueue_x (o : options) (i : nat) s : res (solver V) := _ ← assert_ (i <? s_nb s); enqueue o i s.

  (** Solver::update_, solving.cc 920-927. *)
  Definition update_x (o : options) (level j : nat) (v : V) s : res (solver V) :=
    jj ← non_basic_x s j;
    s1 ← update_col s_tab set_tab j (fun i a_ij d_i s =>
           xj ← at_ (s_vars s) jj;
           ii ← basic_x s i;
           s' ← set_value ii level (vdivz (vmulz (vsub v (v_val xj)) a_ij) d_i) true s;
           enqueue_x o i s') s;
    set_value jj level v false s1.

  (** Solver::pivot_, solving.cc 929-964. *)
  Definition pivot_x (o : options) (level i j : nat) (v : V) s : res (solver V) :=
    '(p, a_ij, d_i) ← unsafe_get (s_tab s) i j;
    _ ← assert_ (negb (a_ij =? 0)%Z);
    ii ← basic_x s i;
    jj ← non_basic_x s j;
    xi ← at_ (s_vars s) ii;
    _ ← at_ (s_vars s) jj;
    let v_j := vmulz (vdivz (vsub v (v_val xi)) a_ij) d_i in
    s1 ← set_value ii level v false s;
    s2 ← set_value jj level v_j true s1;
    s3 ← update_col s_tab set_tab j (fun k a_kj d_k s =>
           if k =? i then Ok s
           else kk ← basic_x s k;
                s' ← set_value kk level (vdivz (vmulz v_j a_kj) d_k) true s;
                enqueue_x o k s') s2;
    _ ← assert_extra (check_tableau s3);
    xi3 ← at_ (s_vars s3) ii;
    xj3 ← at_ (s_vars s3) jj;
    let s4 := upd_var jj (vset_rindex (v_rindex xi3)) (upd_var ii (vset_rindex (v_rindex xj3)) s3) in
    ri ← at_ (s_vars s4) (i + s_nn s4);
    rj ← at_ (s_vars s4) j;
    let s5 := upd_var j (vset_index (v_index ri)) (upd_var (i + s_nn s4) (vset_index (v_index rj)) s4) in
    s6 ← enqueue_x o i s5;
    t ← tpivot_x (s_tab s6) i j p;
    let s7 := set_stats (S (s_pivots s6)) (s_props s6) (set_tab t s6) in
    _ ← crosscheck s7;
    Ok s7.

  (** Solver::select_, solving.cc 965-1019. *)
  Fixpoint select_loop_x (q : list nat) s : res (@sel V * solver V) :=
    match q with
    | [] => _ ← assert_extra (check_solution s); Ok (SelSat, set_conf [] s)
    | ii :: q' =>
        xi ← at_ (s_vars s) ii;
        vi ← at_ (s_vars s) (v_rindex xi);
        _ ← assert_ (ii =? v_index vi);
        let s1 := upd_var ii (vset_queued false) s in
        if v_rindex xi <? s_nn s then select_loop_x q' s1
        else
          let i := v_rindex xi - s_nn s in
          let lower := viol_lower xi in
          if lower || viol_upper xi then
            b ← deref (if lower then v_lower xi else v_upper xi);
            '(kk, rj, cl) ← update_row (s_tab s1) i (select_cell s1 lower) (length (s_vars s1), 0, [(- b_lit b)%Z]);
            let s2 := set_conf q (set_clause cl s1) in
            if kk =? length (s_vars s1) then Ok (SelUnsat, s2)
            else Ok (SelPivot i rj (b_val b), s2)
          else select_loop_x q' s1
    end.
  Definition select_x s : res (@sel V * solver V) := select_loop_x (s_conf s) s.

  (** Solver::update_bound_, solving.cc 597-617. *)
  Definition update_bound_x (o : options) (a : asg) (b : bound V) s : res (solver V * bool) :=
    '(s1, ok) ← update_var a b (b_var b) s;
    x ← at_ (s_vars s1) (b_var b);
    if negb ok then
      u ← deref (v_upper x);
      l ← deref (v_lower x);
      Ok (set_clause [(- b_lit u)%Z; (- b_lit l)%Z] s1, false)
    else if v_rindex x <? s_nn s1 then
      if viol_lower x then
        l ← deref (v_lower x);
        s2 ← update_x o (a_dl a) (v_rindex x) (b_val l) s1; Ok (s2, true)
      else if viol_upper x then
        u ← deref (v_upper x);
        s2 ← update_x o (a_dl a) (v_rindex x) (b_val u) s1; Ok (s2, true)
      else Ok (s1, true)
    else
      s2 ← enqueue_x o (v_rindex x - s_nn s1) s1; Ok (s2, true).
  (** The loops over literals and bounds, solving.cc 678-686: [lbs] are the
      pairs of a literal and an element found for it. *)
  Fixpoint apply_bounds_x (o : options) (a : asg) (lbs : list (Z * bound V)) s : res (solver V * bool) :=
    match lbs with
    | [] => Ok (s, true)
    | (lit, b) :: lbs' =>
        _ ← assert_ (lit =? b_lit b)%Z;
        '(s1, ok) ← update_bound_x o a b s;
        if ok : bool then apply_bounds_x o a lbs' s1 else Ok (s1, false)
    end.
  Definition apply_lits_x (o : options) (a : asg) (lits : list Z) s : res (solver V * bool) :=
    apply_bounds_x o a (List.concat (map (fun lit => map (pair lit) (find_bounds s lit)) lits)) s.

  (** The simplex loop, solving.cc 692-709. *)
  Fixpoint simplex_loop_x (fuel : nat) (o : options) (level : nat) s : res (solver V * bool) :=
    match fuel with
    | 0 => Fuel
    | S fuel =>
        '(r, s1) ← select_x s;
        match r with
        | SelSat => Ok (s1, true)
        | SelUnsat => Ok (s1, false)
        | SelPivot i j v => s2 ← pivot_x o level i j v s1; simplex_loop_x fuel o level s2
        end
    end.
  (** Solver::solve, solving.cc 665-710, up to propagate_. *)
  Definition solve_core_x (fuel : nat) (o : options) (a : asg) (lits : list Z) s : res (solver V * bool) :=
    '(s1, ok) ← apply_lits_x o a lits (push_offset a s);
    if negb ok then Ok (s1, false)
    else
      _ ← crosscheck s1;
      '(s2, ok2) ← simplex_loop_x fuel o (a_dl a) s1;
      if (ok2 : bool) then
        match o_store o with
        | StorePartial => s3 ← store_sat s2; Ok (s3, true)
        | _ => Ok (s2, true)
        end
      else Ok (s2, false).

  (** propagate_row, solving.cc 729-802. *)
  Definition prop_row_x (h : host) (i : nat) s (log : list (list Z)) : res (solver V * list (list Z) * bool) :=
    _ ← at_ (s_vars s) i;
    let s := upd_var i (vset_prop false) s in
    '(lo, up) ← update_row (s_tab s) i (fun j a_ij d_i st => _ ← assert_ (j <? s_nn s); prop_cell1 s j a_ij d_i st) (true, true);
    if negb up && negb lo then Ok (s, log, true)
    else
      '(l, u) ← update_row (s_tab s) i (fun j a_ij d_i st => _ ← assert_ (j <? s_nn s); prop_cell2 s j a_ij d_i st)
          ((if lo then Some vzero else None, []), (if up then Some vzero else None, []));
      yi ← basic_x s i;
      y ← at_ (s_vars s) yi;
      let '(s1, log1, ok1) :=
        match u.1 with
        | Some uv => prop_bounds h (fun b => match b_rel b with BLe => false | _ => vgtb (b_val b) uv end) u.2 (v_bounds y) s log
        | None => (s, log, true)
        end in
      if negb ok1 then Ok (s1, log1, false)
      else
        match l.1 with
        | Some lv => Ok (prop_bounds h (fun b => match b_rel b with BGe => false | _ => vltb (b_val b) lv end) l.2 (v_bounds y) s1 log1)
        | None => Ok (s1, log1, true)
        end.
  Fixpoint prop_rows_x (h : host) (changed : bool) (is : list nat) s (log : list (list Z))
      : res (solver V * list (list Z) * bool) :=
    match is with
    | [] => Ok (s, log, true)
    | i :: is' =>
        '(s1, log1, ok) ← prop_row_x h i (if changed then set_pq is' s else s) log;
        if (ok : bool) then prop_rows_x h changed is' s1 log1 else Ok (s1, log1, false)
    end.
  (** Solver::propagate_, solving.cc 712-819. *)
  Definition propagate_x (h : host) (o : options) s (log : list (list Z)) : res (solver V * list (list Z) * bool) :=
    match o_pmode o with
    | PropNone => Ok (s, log, true)
    | PropChanged => prop_rows_x h true (s_pq s) s log
    | PropFull => prop_rows_x h false (seq 0 (s_nb s)) s log
    end.
  (** Solver::solve, solving.cc 665-710. *)
  Definition solve_x (fuel : nat) (h : host) (o : options) (a : asg) (lits : list Z) s
      (log : list (list Z)) : res (solver V * list (list Z) * bool) :=
    '(s1, ok) ← solve_core_x fuel o a lits s;
    if (ok : bool) then propagate_x h o s1 log
    else Ok (s1, log ++ [s_clause s1], false).

  (** Solver::undo, solving.cc 821-866. *)
  Definition undo_x s : res (solver V) :=
    s' ← undo s;
    _ ← assert_extra (check_solution s');
    Ok s'.

  (** Selection of the leaving variable, solving.cc 540-561. *)
  Definition leave_cell_x s (ee : nat) (pos_a_ze : bool) (i : nat) (a_ie d_i : Z)
      (st : tableau * option (nat * V * V)) : res (tableau * option (nat * V * V)) :=
    yi ← basic_x s i;
    y_i ← at_ (s_vars s) yi;
    let pos_a_ie := Bool.eqb (0 <? a_ie)%Z (0 <? d_i)%Z in
    let increase := Bool.eqb pos_a_ie pos_a_ze in
    _ ← (match (if increase then v_upper y_i else v_lower y_i) with
         | None => Ok tt
         | Some _ => assert_ (i =? v_rindex y_i - s_nn s)
         end);
    leave_cell s ee pos_a_ze i a_ie d_i st.
  (** One iteration of the loop in Solver::optimize, solving.cc 506-580. *)
  Definition optimize_step_x (o : options) s : res (solver V * bool) :=
    xz ← at_ (s_vars s) (ob_var (s_obj s));
    let z := v_rindex xz - s_nn s in
    '(ee, pos) ← update_row (s_tab s) z (enter_cell s) (length (s_vars s), false);
    if ee =? length (s_vars s) then
      _ ← assert_extra (check_solution s);
      Ok (set_obj (obj_set_bounded true (s_obj s)) s, true)
    else
      x_e ← at_ (s_vars s) ee;
      let e := v_rindex x_e in
      ve ← at_ (s_vars s) e;
      _ ← assert_ (ee =? v_index ve);
      '(t, cand) ← update_col fst (fun t st => (t, st.2)) e (leave_cell_x s ee pos) (s_tab s, None);
      let s1 := set_tab t s in
      let level := match last (s_offs s1) with None => 0 | Some f => o_level f end in
      match cand with
      | Some (ll, _, b) =>
          xl ← at_ (s_vars s1) ll;
          s2 ← pivot_x o level (v_rindex xl - s_nn s1) e b s1; Ok (s2, false)
      | None =>
          match (if (pos : bool) then v_upper x_e else v_lower x_e) with
          | None =>
              _ ← assert_extra (check_solution s1);
              Ok (set_obj (obj_set_bounded false (s_obj s1)) s1, true)
          | Some b => s2 ← update_x o level e (b_val b) s1; Ok (s2, false)
          end
      end.
  Fixpoint optimize_loop_x (fuel : nat) (o : options) s : res (solver V) :=
    match fuel with
    | 0 => Fuel
    | S fuel => '(s1, fin) ← optimize_step_x o s; if (fin : bool) then Ok s1 else optimize_loop_x fuel o s1
    end.
  (** Solver::optimize, solving.cc 446-581. *)
  Definition optimize_x (fuel : nat) (o : options) s : res (solver V) :=
    if ob_active (s_obj s) then
      xz ← at_ (s_vars s) (ob_var (s_obj s));
      _ ← assert_ (s_nn s <=? v_rindex xz);
      _ ← assert_extra (check_solution s);
      optimize_loop_x fuel o s
    else Ok s.

  (** Propagator::check, solving.cc 1124-1152 (compare t_check). *)
  Definition t_check_x (fuel : nat) (h : host) (o : options) (a : asg) (total : bool) (lit1 lit2 : Z)
      (facts : list Z) (foff : nat) (st : objst V) (offset : nat) s (log : list (list Z))
      : res (nat * solver V * list (list Z) * bool) :=
    '(off1, s1, log1, ok1) ←
      (if (a_dl a =? 0) && (offset <? foff) then
         _ ← guard_ub (offset + foff <=? length facts);
         '(s1, log1, ok1) ← solve_x fuel h o a (take foff (drop offset facts)) s log;
         Ok (foff, s1, log1, ok1)
       else Ok (offset, s, log, true));
    if negb ok1 then Ok (off1, s1, log1, false)
    else
      '(s2, log2, ok2) ← integrate_objective h o lit1 st s1 log1;
      if negb ok2 then Ok (off1, s2, log2, true)
      else if total : bool then
        s3 ← optimize_x fuel o s2;
        s4 ← (match o_store o with StoreNo => Ok s3 | _ => store_sat s3 end);
        '(s5, log5, _) ← discard_bounded h o lit2 s4 log2;
        Ok (off1, s5, log5, true)
      else Ok (off1, s2, log2, true).

  Context {Sym : Type} `{EqDecision Sym}.

  (** Solver::prepare, solving.cc 278-400: the assertions are in lines 373-375. *)
  Fixpoint prep_enqueue_x (o : options) (is : list nat) s : res (solver V) :=
    match is with
    | [] => Ok s
    | i :: is' => s1 ← enqueue_x o i s; prep_enqueue_x o is' s1
    end.
  Definition prepare_x (h : host) (o : options) (shuf : list (bound V) -> list (bound V)) (nsyms : nat) (find : Sym -> option nat)
      (qs : list (ineq Sym)) (obj : list (Qc * Sym)) (master : bool) (log : list (list Z))
      : res (solver V * list (list Z) * bool) :=
    '(s1, log1, ok) ← prep_ineqs h find master qs (prep_init nsyms) log;
    if negb ok then Ok (s1, log1, false)
    else
      s2 ← prep_objective o find obj s1;
      s3 ← prep_enqueue_x o (seq 0 (s_nb s2)) s2;
      let s3 := set_bounds (shuf (s_bounds s3)) s3 in
      s4 ← prep_register (s_bounds s3) s3;
      _ ← crosscheck s4;
      if o_pconf o && master then
        let '(log2, ok2) := static_vars h (s_vars s4) log1 in Ok (s4, log2, ok2)
      else Ok (s4, log1, true).
  Fixpoint prep_threads_x (h : host) (o : options) (shuf : nat -> list (bound V) -> list (bound V)) (vs : list Sym)
      (iqs : list (ineq Sym)) (obj : list (Qc * Sym)) (ids : list nat) (log : list (list Z))
      : res (list (nat * solver V) * list (list Z) * bool) :=
    match ids with
    | [] => Ok ([], log, true)
    | i :: ids' =>
        '(s, log1, ok) ← prepare_x h o (shuf i) (length vs) (find_sym vs) iqs obj (i =? 0) log;
        if negb ok then Ok ([(0, s)], log1, false)
        else '(r, log2, ok2) ← prep_threads_x h o shuf vs iqs obj ids' log1; Ok ((0, s) :: r, log2, ok2)
    end.
  (** Propagator::init, solving.cc 1046-1079. *)
  Definition p_init_x (h : host) (o : options) (shuf : nat -> list (bound V) -> list (bound V)) (threads : nat)
      (iqs : list (ineq Sym)) (obj : list (Qc * Sym)) (p : propagator V Sym) (log : list (list Z))
      : res (propagator V Sym * list (list Z) * bool) :=
    let vs := fold_left (fun vs q => gather vs (q_lhs q)) iqs (gather (p_vars p) obj) in
    '(slvs, log', ok) ← prep_threads_x h o shuf vs iqs obj (seq 0 threads) log;
    Ok (Propagator vs obj iqs (length (p_facts p)) (p_facts p) slvs os_reset, log', ok).

  (** Propagator::check, propagate, undo, solving.cc 1124-1169. *)
  Definition p_check_x (fuel : nat) (h : host) (o : options) (a : asg) (total : bool) (lit1 lit2 : Z) (t : nat)
      (p : propagator V Sym) (log : list (list Z)) : res (propagator V Sym * list (list Z) * bool) :=
    '(off, s) ← at_ (p_slvs p) t;
    '(off', s', log', ok) ← t_check_x fuel h o a total lit1 lit2 (p_facts p) (p_foff p) (p_state p) off s log;
    Ok (put_thread t (off', s') p, log', ok).
  Definition p_propagate_x (fuel : nat) (h : host) (o : options) (a : asg) (changes : list Z) (t : nat)
      (p : propagator V Sym) (log : list (list Z)) : res (propagator V Sym * list (list Z) * bool) :=
    let p1 := if (a_dl a =? 0) && (t =? 0)
              then Propagator (p_vars p) (p_obj p) (p_iqs p) (p_foff p) (p_facts p ++ changes) (p_slvs p) (p_state p)
              else p in
    '(off, s) ← at_ (p_slvs p1) t;
    '(s', log', ok) ← solve_x fuel h o a changes s log;
    Ok (put_thread t (off, s') p1, log', ok).
  Definition p_undo_x (t : nat) (p : propagator V Sym) : res (propagator V Sym) :=
    '(off, s) ← at_ (p_slvs p) t;
    s' ← undo_x s;
    Ok (put_thread t (off, s') p).

  (** A callback of the cross-check build (compare wstep). *)
  Definition wstep_x (fuel : nat) (o : options) (e : event) (w : world V Sym) : res (world V Sym) :=
    match e with
    | EvPropagate t h a lits =>
        let k := deliver (a_dl a) lits (snaps (w_p w) t) (th_stk (thread_of w t)) in
        '(p, log, ok) ← p_propagate_x fuel h o a lits t (w_p w) (w_log w);
        Ok (World p log (<[t := Thread k (blocks ok k log)]> (w_th w)) (w_rep w))
    | EvCheck t h a total lit1 lit2 =>
        '(off, _) ← at_ (p_slvs (w_p w)) t;
        let k := if (a_dl a =? 0) && (off <? p_foff (w_p w))
                 then deliver 0 (take (p_foff (w_p w)) (p_facts (w_p w))) (snaps (w_p w) t) (th_stk (thread_of w t))
                 else th_stk (thread_of w t) in
        '(p, log, ok) ← p_check_x fuel h o a total lit1 lit2 t (w_p w) (w_log w);
        Ok (World p log (<[t := Thread k (blocks ok k log)]> (w_th w)) (w_rep w))
    | EvUndo t =>
        p ← p_undo_x t (w_p w);
        Ok (World p (w_log w) (<[t := Thread (tail (th_stk (thread_of w t))) false]> (w_th w)) (w_rep w))
    | EvModel t =>
        v ← p_get_objective (w_p w) t;
        p ← p_on_model o t (w_p w);
        Ok (World p (w_log w) (w_th w) (match v with Some x => w_rep w ++ [x] | None => w_rep w end))
    end.
End checks.
