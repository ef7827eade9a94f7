(** * Concrete cases for the theorems about atoms, numbers, shared objectives,
    options and facts

    Every theorem shows that a non-trivial case meets the hypotheses of the
    theorems of the property it is named after. *)

From Verif Require Import Num Sums Solver Spec Propagator World Parsing ParseSpec ParseNum ParseProofs ParseSum ParseTheory ParseAtoms ParsePrograms ParseSyntax
  Reach WeakReach Observe Examples Props_Parsing Props_Global Props_Program Api Props_Options Props_Solver Props_Decision Props_Facts Props_Equality2.

Local Open Scope string_scope.
Ltac no_quotes := let s := fresh in let E := fresh in intros s E; discriminate E.
Ltac plain_term := let n := fresh in let s := fresh in let q := fresh in let E := fresh in let Hq := fresh in
  intros (n & s & q & E & Hq & _); try discriminate E; injection E as <-; discriminate Hq.

(** ** C17, C23: 2*x(1) - (y - "0.5")/4 *)
Definition half_text : string := String "034" "0.5""".
Definition t_lin : tterm := TFun "-" [TFun "*" [TNum 2; TFun "x" [TNum 1]]; TFun "/" [TFun "-" [TSym "y"; TSym half_text]; TNum 4]].
(** x*y *)
Definition t_nonlin : tterm := TFun "*" [TSym "x"; TSym "y"].

Lemma half_quoted : quoted half_text ["0"; "."; "5"]%char.
Proof. reflexivity. Qed.
Lemma half_decimal : decimal ["0"; "."; "5"]%char (int_value ["0"%char] + frac_value ["5"%char])%Qc.
Proof.
  apply dec_pos. apply (dec_frac ["0"%char] ["5"%char]); (split; [discriminate|]); repeat constructor; discriminate.
Qed.
Theorem C23_example : quoted half_text ["0"; "."; "5"]%char /\ decimal ["0"; "."; "5"]%char half /\ as_num half_text = Some half.
Proof.
  split; [exact half_quoted|]. assert (E : (int_value ["0"%char] + frac_value ["5"%char])%Qc = half) by (apply Qc_is_canon; vm_compute; reflexivity).
  pose proof half_decimal as D. rewrite E in D. split; [exact D|]. apply C23_quoted_decimals. eauto using half_quoted.
Qed.
(** "abc" is a string, not a number *)
Theorem C23_example_string : let n := String "034" "abc""" in quoted n ["a"; "b"; "c"]%char /\ (forall q, ~ decimal ["a"; "b"; "c"]%char q) /\ escaped ["a"; "b"; "c"]%char.
Proof.
  cbv zeta. split; [reflexivity|]. split.
  - intros q Hd. assert (E : as_num (String "034" "abc""") = Some q) by (apply C23_quoted_decimals; exists ["a"; "b"; "c"]%char; split; [reflexivity|exact Hd]). discriminate E.
  - eexists. repeat (apply un_chr; [discriminate|]). apply un_nil.
Qed.

Lemma var_const n : (forall s, ~ quoted n s) -> variable (TSym n) (SFun n [] true).
Proof.
  intros Hn. split; [apply na_con; exact Hn|]. split; [intros (n' & s & q & [= <-] & Hq & _); apply (Hn s Hq)|].
  split; intros (a & E); discriminate E.
Qed.
Lemma clean_lin : clean t_lin.
Proof.
  cbn. repeat split. 1: no_quotes. intros s E. assert (s = ["0"; "."; "5"]%char) as ->.
  - unfold quoted in E. cbn in E. injection E as E. change (["0"; "."; "5"; "034"]%char) with (["0"; "."; "5"]%char ++ ["034"%char])%list in E. apply app_inj_tail in E as [<- _]. reflexivity.
  - eexists. repeat (apply un_chr; [discriminate|]). apply un_nil.
Qed.
Theorem C17_example : clean t_lin /\ linear t_lin /\
  (forall A, means A t_lin (qofz 2 * A (SFun "x" [SNum 1] true) - (A (SFun "y" [] true) - half) / qofz 4)%Qc) /\
  (exists ts, parse_sum_elem Flint t_lin = Ok ts /\ length ts = 3).
Proof.
  destruct C23_example as (Q & D & _).
  assert (Vx : variable (TFun "x" [TNum 1]) (SFun "x" [SNum 1] true)) by exact C19_guard_hypothesis.
  assert (Vy : variable (TSym "y") (SFun "y" [] true)) by (apply var_const; no_quotes).
  assert (D4 : qofz 4 <> 0%Qc) by (intros E; discriminate E).
  split; [exact clean_lin|]. split; [|split].
  - apply li_sub; [apply li_mul; [apply li_num|eapply li_var; exact Vx|left; apply vf_num]|].
    apply (li_div _ _ (qofz 4)); [|apply nu_num|exact D4].
    apply li_sub; [eapply li_var; exact Vy|]. apply li_dec. exists half_text, ["0"; "."; "5"]%char, half. auto.
  - intros A. apply me_sub; [apply me_mul; [apply me_num|apply me_var; exact Vx]|]. apply me_div; [|apply me_num|exact D4].
    apply me_sub; [apply me_var; exact Vy|]. eapply me_dec; [exact Q|exact D].
  - assert (E : match parse_sum_elem Flint t_lin with Ok ts => Nat.eqb (length ts) 3 | _ => false end = true) by (vm_compute; reflexivity).
    destruct (parse_sum_elem Flint t_lin) as [ts| | |]; try discriminate E. exists ts. split; [reflexivity|apply Nat.eqb_eq; exact E].
Qed.
Lemma nonlin_clean : clean t_nonlin /\ zero_free t_nonlin.
Proof. split; cbn; repeat split; try no_quotes. intros a b ns E. discriminate E. Qed.
Theorem C17_example_rejected : clean t_nonlin /\ zero_free t_nonlin /\ ~ linear t_nonlin /\ parse_sum_elem Flint t_nonlin = Exn.
Proof.
  split; [apply nonlin_clean|]. split; [apply nonlin_clean|]. assert (E : parse_sum_elem Flint t_nonlin = Exn) by (vm_compute; reflexivity). split; [|exact E].
  intros Hl. destruct (proj2 (C17_accepted Flint t_nonlin (proj1 nonlin_clean)) Hl) as (ts & Et). congruence.
Qed.

(** ** C18: 2*x + 3 - 2*x + y/2 *)
Definition x_ : symbol := SFun "x" [] true.
Definition y_ : symbol := SFun "y" [] true.
Theorem C18_example : simplify [(qz 2, x_); (qz 3, SNum 0); (qz (-2), x_); (half, y_)] = ([(half, y_)], qz (-3)).
Proof. vm_compute. reflexivity. Qed.

(** ** C39: &sum{x*y} <= 1 is not well-formed, after a program was accepted *)
Definition bad_atom : tatom := TAtom (TSym "sum") [TElem [t_nonlin] [] 0%Z] (Some ("<=", TNum 1)) 69%Z.
Theorem C39_example : loaded shift_mapper Flint pgm pgm_st /\ (forall a, a ∈ (pgm ++ [bad_atom])%list -> clean_atom a) /\ zero_free_atom bad_atom /\ ~ well_formed bad_atom.
Proof.
  split; [exact pgm_loaded|]. split; [|split].
  - intros a Ha. apply elem_of_app in Ha as [Ha|Ha]; [apply pgm_clean, Ha|]. apply elem_of_list_singleton in Ha as ->. split.
    + intros e t He Ht. apply elem_of_list_singleton in He as ->. apply elem_of_list_singleton in Ht as ->. apply nonlin_clean.
    + intros r g [= _ <-]. exact Logic.I.
  - split.
    + intros e t He Ht. apply elem_of_list_singleton in He as ->. apply elem_of_list_singleton in Ht as ->. apply nonlin_clean.
    + intros r g [= _ <-]. exact Logic.I.
  - assert (N : forall n, n <> "sum" -> ~ called n bad_atom) by (intros n Hn [E|E]; [injection E; congruence|discriminate E]).
    assert (L : forall es, es = ta_elems bad_atom -> ~ linear_elements es).
    { intros es -> Hl. destruct (Hl _ (elem_of_list_here _ _)) as (t & [= <-] & Ht). apply (proj1 (proj2 (proj2 C17_example_rejected))). exact Ht. }
    intros Hw. inversion Hw as [r g R Hc Hg Hr Hlg Hle|r g R s t cid Hc| r g l u cid v x y Hc|Hc|Hc|Ho].
    + eapply L; [reflexivity|exact Hle].
    + eapply N; [|exact Hc]; discriminate.
    + eapply N; [|exact Hc]; discriminate.
    + eapply N; [|exact Hc]; discriminate.
    + eapply N; [|exact Hc]; discriminate.
    + apply (Ho "sum"); [left|left; reflexivity].
Qed.

(** ** C26: two threads; 3 and then 5 are reported, thread 0 polls in between *)
Definition calls26 : list (call (V := Qc)) := [Report (qz 3, true); Poll 0; Report (qz 2, true); Poll 1; Report (qz 5, true)].
Theorem C26_example : poll_free (V := Qc) 2 calls26 /\ Props_Global.best (reports calls26) (Some (qz 5, true)) /\
  sy_ret (execs (calls26 ++ [Poll 0]) sys_init) = Some (qz 5, true) /\ sy_ret (execs (calls26 ++ [Poll 0; Poll 0]) sys_init) = None.
Proof.
  split; [|split; [|split]].
  - intros Ht. unfold calls26 in Ht. rewrite !elem_of_cons in Ht. destruct Ht as [Ht|[Ht|[Ht|[Ht|[Ht|Ht]]]]]; try discriminate; inversion Ht.
  - pose proof (C26_poll_returns_best calls26 0 (qz 5, true)) as B. apply B. vm_compute. reflexivity.
  - vm_compute. reflexivity.
  - vm_compute. reflexivity.
Qed.

(** ** C28: values and objective of an accepted state; the program has two variables *)
Definition reads28 (x : option (world RatQ symbol)) : bool :=
  match x with
  | Some w => Nat.ltb 0 (length (w_th w)) && bool_decide (f_lookup (w_p w) x_ = Some 1) && bool_decide (f_lookup (w_p w) y_ = Some 2) &&
      bool_decide (f_lookup (w_p w) (SFun "z" [] true) = None) && f_has_value (w_p w) 0 2 && negb (f_has_value (w_p w) 0 4) &&
      match f_iterate (S (p_n_values (w_p w) 0)) (w_p w) 0 f_begin, f_get_value (w_p w) 0 1 with Ok [1; 2], Ok v => bool_decide (vemb v = (qz 3, (-(1))%Qc)) | _, _ => false end
  | None => false
  end.
Lemma reads28_ok w0 evs : (forall w, w0 = Some w -> reach pgm_opts pgm_shot w) -> reads28 (match w0 with Some w => runs 50 pgm_opts evs w | None => None end) = true ->
  exists w, reach_any pgm_opts pgm_shot w /\ 0 < length (w_th w) /\ f_lookup (w_p w) x_ = Some 1 /\ f_lookup (w_p w) y_ = Some 2 /\
    f_lookup (w_p w) (SFun "z" [] true) = None /\ f_has_value (w_p w) 0 2 = true /\ f_has_value (w_p w) 0 4 = false /\
    f_iterate (S (p_n_values (w_p w) 0)) (w_p w) 0 f_begin = Ok [1; 2] /\ exists v, f_get_value (w_p w) 0 1 = Ok v /\ vemb v = (qz 3, (-(1))%Qc).
Proof.
  intros Hr E. destruct w0 as [w0|]; [|discriminate E]. specialize (Hr w0 eq_refl). destruct (runs 50 pgm_opts evs w0) as [w|] eqn:E1; [|discriminate E].
  unfold reads28 in E. rewrite !andb_true_iff in E. destruct E as ((((((E2 & E3) & E4) & E5) & E6) & E7) & E8).
  apply Nat.ltb_lt in E2. apply bool_decide_eq_true in E3, E4, E5. apply negb_true_iff in E7.
  exists w. split; [apply reach_reach_any; exact (runs_reach _ _ _ _ _ _ Hr E1)|].
  destruct (f_iterate _ _ _ _) as [[|[|[|]] [|[|[|[|]]] [|]]]| | |]; try discriminate E8. destruct (f_get_value (w_p w) 0 1) as [v| | |]; try discriminate E8.
  apply bool_decide_eq_true in E8. repeat (split; [assumption|]). split; [reflexivity|]. exists v. split; [reflexivity|exact E8].
Qed.
Theorem C28_example : exists w, reach_any pgm_opts pgm_shot w /\ 0 < length (w_th w) /\ f_lookup (w_p w) x_ = Some 1 /\ f_lookup (w_p w) y_ = Some 2 /\
    f_lookup (w_p w) (SFun "z" [] true) = None /\ f_has_value (w_p w) 0 2 = true /\ f_has_value (w_p w) 0 4 = false /\
    f_iterate (S (p_n_values (w_p w) 0)) (w_p w) 0 f_begin = Ok [1; 2] /\ exists v, f_get_value (w_p w) 0 1 = Ok v /\ vemb v = (qz 3, (-(1))%Qc).
Proof.
  apply (reads28_ok pgm_first [pgm_prop; pgm_check]).
  - intros w. exact (first_of_ok pgm_shot _ w pgm_shot_ok eq_refl eq_refl).
  - vm_compute. reflexivity.
Qed.

(** ** C31: select=MaTcH is accepted, select=some is not *)
Theorem C31_example : let t := Theory default_options false in
  (exists t', setting "select" (list_ascii_of_string "MaTcH") t t' /\ o_select (t_opts t') = SelectMatch /\ configure "select" (list_ascii_of_string "MaTcH") t = Ok (t', None)) /\
  (forall t', ~ setting "select" (list_ascii_of_string "some") t t') /\ configure "select" (list_ascii_of_string "some") t = Ok (t, Some (BadValue "select")).
Proof.
  cbv zeta. split.
  - assert (C : configure "select" (list_ascii_of_string "MaTcH") (Theory default_options false) = Ok (Theory (set_select SelectMatch default_options) false, None)) by (vm_compute; reflexivity).
    eexists. split; [|split; [|exact C]]; [|reflexivity]. apply (set_sel _ "match" SelectMatch (Theory default_options false)); [|constructor].
    apply iequals_spec. vm_compute. reflexivity.
  - assert (C : configure "select" (list_ascii_of_string "some") (Theory default_options false) = Ok (Theory default_options false, Some (BadValue "select"))) by (vm_compute; reflexivity).
    split; [|exact C]. intros t' Hs. apply (C31_configure_partial "select" (list_ascii_of_string "some") (Theory default_options false) ltac:(discriminate) ltac:(discriminate)) in Hs. rewrite C in Hs. discriminate Hs.
Qed.

(** ** C34: backtracking with stored values *)
Theorem C34_example : let w := ex_world ex_gopts 2 evs_global in reach ex_gopts (ex_shot 2 []) w /\ o_store ex_gopts <> StoreNo /\
  adm (EvUndo 0) w /\ (exists w', step ex_gopts (EvUndo 0) w w') /\ exists e, head (th_stk (thread_of w 0)) = Some e /\ en_level e = 1.
Proof.
  cbv zeta. split; [apply ex_reach; vm_compute; reflexivity|]. split; [discriminate|]. split; [apply admb_ok; vm_compute; reflexivity|]. split.
  - assert (E : match wstep 50 ex_gopts (EvUndo 0) (ex_world ex_gopts 2 evs_global) with Ok _ => true | _ => false end = true) by (vm_compute; reflexivity).
    destruct (wstep 50 ex_gopts (EvUndo 0) (ex_world ex_gopts 2 evs_global)) as [w'| | |] eqn:Ew; try discriminate E. exists w', 50. exact Ew.
  - assert (E : match head (th_stk (thread_of (ex_world ex_gopts 2 evs_global) 0)) with Some e => Nat.eqb (en_level e) 1 | None => false end = true) by (vm_compute; reflexivity).
    destruct (head (th_stk (thread_of (ex_world ex_gopts 2 evs_global) 0))) as [e|]; [|discriminate E]. exists e. split; [reflexivity|apply Nat.eqb_eq; exact E].
Qed.

(** ** C35: x >= 1 is a fact of the first shot; the second shot starts with a
    check on the top level and goes on to x <= 0 *)
Definition facts_iqs : list (ineq nat) := [Ineq [(qz 1, 0%nat)] (qz 1) Rge 10%Z; Ineq [(qz 1, 0%nat)] (qz 0) Rle 31%Z; Ineq [(qz 1, 0%nat); (qz 1, 1%nat)] (qz 2) Rle 41%Z].
Definition second35 (x : option (world Qc nat)) : option (world Qc nat) :=
  match x with Some w => begin2 default_options facts_iqs [] (w_p w) (w_log w) | None => None end.
Definition facts_check (x : option (world Qc nat)) : bool :=
  match x with
  | Some w => bool_decide (old_facts w = [10%Z]) && admb (ev_check 0 0 false 901 911) w &&
      match wstep 50 default_options (ev_check 0 0 false 901 911) w with
      | Ok w1 => match runs 50 default_options [ev_prop 0 1 [41%Z]] w1 with
          | Some w2 => bool_decide (old_facts w = [10%Z]) && Nat.ltb 0 (length (w_th w2)) && negb (th_blk (thread_of w2 0)) && bool_decide (api_value (w_p w2) 0 0%nat = qz 1)
          | None => false end
      | _ => false end
  | None => false
  end.
Lemma runs_later35 fuel o evs : forall (w0 w w' : world Qc nat), later o w0 w -> runs fuel o evs w = Some w' -> later o w0 w'.
Proof.
  induction evs as [|e evs IH]; intros w0 w w' Hl; cbn [runs]; [intros [= <-]; exact Hl|]. destruct (admb e w && safeb e w) eqn:Ea; [|discriminate].
  apply andb_true_iff in Ea as [A B]. destruct (wstep fuel o e w) as [w1| | |] eqn:E1; try discriminate. apply IH. eapply later_step; [exact Hl|apply admb_ok, A|apply safeb_ok, B|exists fuel; exact E1].
Qed.
Lemma facts_aux (w0 : option (world Qc nat)) : (forall w, w0 = Some w -> reach default_options (any_shot 1 facts_iqs []) w) -> facts_check (second35 w0) = true ->
  exists sh (w w1 w2 : world Qc nat), reach default_options sh w /\ adm (ev_check 0 0 false 901 911) w /\ step default_options (ev_check 0 0 false 901 911) w w1 /\
    later default_options w1 w2 /\ accepted w2 0 /\ old_facts w = [10%Z] /\ sh_iqs sh = facts_iqs /\ api_value (w_p w2) 0 0%nat = qz 1.
Proof.
  intros Hr E. destruct w0 as [w0|]; [|discriminate E]. specialize (Hr w0 eq_refl). unfold second35, begin2 in E. destruct (p_init _ _ _ _ _ _ _ _) as [[[p log] [|]]| | |] eqn:Ei; try discriminate E.
  unfold facts_check in E. rewrite !andb_true_iff in E. destruct E as ((E1 & E2) & E3). apply bool_decide_eq_true in E1.
  destruct (wstep 50 default_options (ev_check 0 0 false 901 911) (start p log)) as [w1| | |] eqn:Es; try discriminate E3.
  destruct (runs 50 default_options [ev_prop 0 1 [41%Z]] w1) as [w2|] eqn:Er; [|discriminate E3]. rewrite !andb_true_iff in E3. destruct E3 as (((_ & E4) & E5) & E6).
  apply Nat.ltb_lt in E4. apply negb_true_iff in E5. apply bool_decide_eq_true in E6.
  exists (Shot quiet (fun _ l => l) 1 facts_iqs [] (w_log w0)), (start p log), w1, w2.
  split; [eapply reach_next; [exact Hr| |reflexivity|exact Ei]|].
  - apply (shot2_ok facts_iqs [] (w_log w0)); vm_compute; reflexivity.
  - split; [apply admb_ok; exact E2|]. split; [exists 50; exact Es|]. split; [eapply runs_later35; [apply later_refl|exact Er]|]. split; [split; [exact E4|exact E5]|]. auto.
Qed.
Theorem C35_example : exists sh (w w1 w2 : world Qc nat), reach default_options sh w /\ adm (ev_check 0 0 false 901 911) w /\
  step default_options (ev_check 0 0 false 901 911) w w1 /\ later default_options w1 w2 /\ accepted w2 0 /\ old_facts w = [10%Z] /\ sh_iqs sh = facts_iqs /\
  api_value (w_p w2) 0 0%nat = qz 1.
Proof.
  apply (facts_aux (any_world default_options 1 facts_iqs [] [ev_prop 0 0 [10%Z]])).
  - intros w. apply any_reach. vm_compute. reflexivity.
  - vm_compute. reflexivity.
Qed.
