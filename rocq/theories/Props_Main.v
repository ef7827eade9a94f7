(** * C47: the printed answer *)

From Coq Require Import Ascii String Sorting.Sorted.
From Verif Require Import Num Solver Propagator Spec World WorldProofs Reach WeakReach Parsing Api ParseSpec Examples Props_Print Props_Api Props_Program Main.

(** ** Specification: words separated by single spaces; the text of an answer *)
Inductive words : list (list ascii) -> list ascii -> Prop :=
  | wo_none : words [] []
  | wo_one w : words [w] w
  | wo_more w w' r s : words (w' :: r) s -> words (w :: w' :: r) (w ++ " "%char :: s).
Definition ascending {A} (less : A -> A -> bool) (l : list A) : Prop :=
  forall i j a b, l !! i = Some a -> l !! j = Some b -> i < j -> less b a = false.
(** the lines before the objective: [shown] and [assignment] are the symbols and the pairs of variable and text of the value *)
Definition answer (show : symbol -> list ascii) (shown : list symbol) (assignment : list (symbol * list ascii)) (s : list ascii) : Prop :=
  exists s1 s2, words (map show shown) s1 /\ words (map (fun '(x, v) => show x ++ "="%char :: v) assignment) s2 /\
    s = s1 ++ "010"%char :: list_ascii_of_string "Assignment:" ++ "010"%char :: s2.
Definition objective_line (obj : option (list ascii * bool)) : list ascii :=
  match obj with
  | None => []
  | Some (v, true) => "010"%char :: list_ascii_of_string "Optimization: " ++ v ++ list_ascii_of_string " [bounded]"
  | Some (v, false) => "010"%char :: list_ascii_of_string "Optimization: " ++ v ++ list_ascii_of_string " [unbounded]"
  end.

(** ** Proofs *)
Lemma words_join l : words l (join l).
Proof.
  induction l as [|w [|w' r] IH]; [constructor|constructor|].
  change (join (w :: w' :: r)) with (w ++ " "%char :: join (w' :: r)). now constructor.
Qed.
Lemma words_unique l s s' : words l s -> words l s' -> s = s'.
Proof.
  intros H. revert s'. induction H as [|w|w w' r s H IH]; intros s' H'; inversion H'; subst; auto. f_equal. f_equal. now apply IH.
Qed.

Section printed.
  Context {V} {IV : Value V} (pv : V -> list ascii) (show : symbol -> list ascii) (less : symbol -> symbol -> bool) (srt : list symbol -> list symbol).
  Context (srt_perm : forall l, srt l ≡ₚ l) (srt_sorted : forall l, ascending less (srt l)).
  (** clingo compares functions of the same name argument by argument *)
  Context (less_args : forall n x y l l' pos, less x y = true -> less (SFun n (x :: l) pos) (SFun n (y :: l') pos) = true).

  Lemma shown_join comma l : print_shown show comma l = (if comma then match l with [] => [] | _ => [" "%char] end else []) ++ join (map show l).
  Proof.
    revert comma. induction l as [|s l IH]; intros comma; [now destruct comma|]. cbn [print_shown]. rewrite IH. destruct l as [|s' l].
    - cbn. rewrite app_nil_r. now destruct comma.
    - change (join (map show (s :: s' :: l))) with (show s ++ [" "%char] ++ join (map show (s' :: l))). now destruct comma.
  Qed.

  (** what the loop over the theory symbols sees *)
  Definition as_pair (s : symbol) : option (symbol * string) :=
    if smatch s "__lpx" 2 then match sargs s with [x; SStr v] => Some (x, v) | _ => None end else None.
  Definition as_obj (s : symbol) : option (string * bool) :=
    match as_pair s with
    | Some _ => None
    | None => if smatch s "__lpx_objective" 2 then match sargs s with [SStr v; SNum z] => Some (v, (z =? 1)%Z) | _ => None end else None
    end.
  Notation entry p := (show (fst p) ++ list_ascii_of_string "=" ++ list_ascii_of_string (snd p)).
  Lemma assignment_join l : forall comma obj, print_assignment show comma obj l =
    ((if comma then match omap as_pair l with [] => [] | _ => [" "%char] end else []) ++ join (map (fun p => entry p) (omap as_pair l)),
     match last (omap as_obj l) with Some o => Some o | None => obj end).
  Proof.
    induction l as [|s l IH]; intros comma obj; [now destruct comma|].
    assert (Ec : omap as_pair (s :: l) = match as_pair s with Some p => p :: omap as_pair l | None => omap as_pair l end) by reflexivity.
    assert (Eo : omap as_obj (s :: l) = match as_obj s with Some p => p :: omap as_obj l | None => omap as_obj l end) by reflexivity.
    rewrite Ec, Eo. clear Ec Eo. unfold as_obj at 1. cbn [print_assignment].
    assert (Hcase : (exists x v, as_pair s = Some (x, v) /\ smatch s "__lpx" 2 = true /\ sargs s = [x; SStr v]) \/
                    (as_pair s = None /\ forall (A : Type) (f : symbol -> string -> A) (d : A), match smatch s "__lpx" 2, sargs s with true, [x; SStr v] => f x v | _, _ => d end = d)).
    { unfold as_pair. destruct (smatch s "__lpx" 2); [|right; split; [reflexivity|intros; reflexivity]].
      destruct (sargs s) as [|x [|[z|v|n a p] [|? ?]]]; try (right; split; [reflexivity|intros; reflexivity]). left. eauto. }
    destruct Hcase as [(x & v & Ep & Em & Ea)|[Ep Hd]].
    - rewrite Ep, Em, Ea. rewrite IH. f_equal. destruct (omap as_pair l) as [|p' r] eqn:El.
      + cbn [app map join fst snd]. rewrite !app_nil_r. now destruct comma.
      + change (join (map (fun p => entry p) ((x, v) :: p' :: r))) with (entry (x, v) ++ [" "%char] ++ join (map (fun p => entry p) (p' :: r))).
        cbn [fst snd]. rewrite <- !app_assoc. now destruct comma.
    - rewrite Hd, Ep. destruct (smatch s "__lpx_objective" 2); [|apply IH].
      destruct (sargs s) as [|[z|v|n a p] [|[z'|v'|n' a' p'] [|? ?]]]; try apply IH. rewrite IH. f_equal.
      change (last ((v, (z' =? 1)%Z) :: omap as_obj l)) with (match omap as_obj l with [] => Some (v, (z' =? 1)%Z) | _ => last (omap as_obj l) end).
      destruct (omap as_obj l) as [|o r]; [reflexivity|]. destruct (last (o :: r)) eqn:E; [reflexivity|]. now apply last_None in E.
  Qed.
  Lemma py_join l : (forall s, s ∈ l -> py_match s "__lpx" 2 = smatch s "__lpx" 2 /\ (smatch s "__lpx" 2 = true -> as_pair s <> None)) ->
    py_assignment show l = Some (map (fun p => entry p) (omap as_pair l)).
  Proof.
    induction l as [|s l IH]; intros H; [reflexivity|].
    destruct (H s (elem_of_list_here _ _)) as [H1 H2].
    specialize (IH (fun s' Hs => H s' (elem_of_list_further _ _ _ Hs))).
    assert (Ec : omap as_pair (s :: l) = match as_pair s with Some p => p :: omap as_pair l | None => omap as_pair l end) by reflexivity.
    rewrite Ec. clear Ec. cbn [py_assignment]. rewrite H1. unfold as_pair in *. destruct (smatch s "__lpx" 2); [|exact IH].
    specialize (H2 eq_refl). destruct (sargs s) as [|x [|[z|v|n a p] [|? ?]]]; try congruence. rewrite IH. reflexivity.
  Qed.

  Lemma string_text (v : V) : list_ascii_of_string (string_of_list_ascii (pv v)) = pv v.
  Proof. apply list_ascii_of_string_of_list_ascii. Qed.
  Lemma omap_perm {A B} (f : A -> option B) l l' : l ≡ₚ l' -> omap f l ≡ₚ omap f l'.
  Proof.
    induction 1 as [|x l l' H IH|x y l|]; cbn; auto.
    - destruct (f x); auto.
    - destruct (f x), (f y); auto. constructor.
    - etransitivity; eassumption.
  Qed.
  Lemma omap_ascending (l : list symbol) : ascending less l -> (forall s, s ∈ l -> exists n p, s = SFun n (sargs s) p /\ p = true) ->
    ascending (fun p p' : symbol * string => less (fst p) (fst p')) (omap as_pair l).
  Proof.
    induction l as [|s l IH]; intros Ha Hs; [intros i j a b H; discriminate H|].
    assert (Ha' : ascending less l) by (intros i j a b Hi Hj Hij; apply (Ha (S i) (S j) a b Hi Hj); lia).
    specialize (IH Ha' (fun s' H => Hs s' (elem_of_list_further _ _ _ H))).
    assert (Ec : omap as_pair (s :: l) = match as_pair s with Some p => p :: omap as_pair l | None => omap as_pair l end) by reflexivity.
    rewrite Ec. clear Ec. destruct (as_pair s) as [[x v]|] eqn:Ep; [|exact IH].
    intros [|i] [|j] a b Hi Hj Hij; try lia; cbn in Hi, Hj.
    2: { apply (IH i j a b Hi Hj). lia. }
    injection Hi as <-. apply elem_of_list_lookup_2, elem_of_list_omap in Hj as (s' & Hin & Es').
    apply elem_of_list_lookup in Hin as [k Hk]. pose proof (Ha 0 (S k) s s' eq_refl Hk ltac:(lia)) as Hl.
    destruct (Hs s (elem_of_list_here _ _)) as (n & p & E & ->). destruct (Hs s') as (n' & p' & E' & ->); [apply elem_of_list_further; eapply elem_of_list_lookup_2; eassumption|].
    destruct b as [y w]. unfold as_pair in Ep, Es'. rewrite E in Ep. rewrite E' in Es'. cbn [smatch sargs] in Ep, Es'.
    destruct (String.eqb_spec n "__lpx"); [|discriminate]. destruct (String.eqb_spec n' "__lpx"); [|discriminate]. subst n n'. cbn [andb] in *.
    destruct (length (sargs s) =? 2); [|discriminate]. destruct (length (sargs s') =? 2); [|discriminate].
    destruct (sargs s) as [|x1 [|[z1|v1|n1 a1 p1] [|? ?]]]; try discriminate. injection Ep as -> ->.
    destruct (sargs s') as [|x2 [|[z2|v2|n2 a2 p2] [|? ?]]]; try discriminate. injection Es' as -> ->.
    cbn [fst]. destruct (less y x) eqn:El; [|reflexivity]. rewrite E, E' in Hl. rewrite (less_args "__lpx" y x [SStr w] [SStr v] true El) in Hl. discriminate.
  Qed.

  Definition extension_of (l : list (symbol * V)) (obj : option (V * bool)) : list symbol :=
    map (fun '(x, v) => lpx_atom pv x v) l ++ match obj with Some (v, b) => [objective_atom pv v b] | None => [] end.
  Lemma extension_pairs l obj : omap as_pair (extension_of l obj) = map (fun '(x, v) => (x, string_of_list_ascii (pv v))) l.
  Proof.
    unfold extension_of. rewrite omap_app. replace (omap as_pair (match obj with Some (v, b) => [objective_atom pv v b] | None => [] end)) with (@nil (symbol * string))
      by (destruct obj as [[v b]|]; reflexivity).
    rewrite app_nil_r. induction l as [|[x v] l IH]; [reflexivity|]. cbn [map]. rewrite <- IH. reflexivity.
  Qed.
  Lemma extension_obj l obj : omap as_obj (extension_of l obj) = match obj with Some (v, b) => [(string_of_list_ascii (pv v), b)] | None => [] end.
  Proof.
    unfold extension_of. rewrite omap_app. replace (omap as_obj (map (fun '(x, v) => lpx_atom pv x v) l)) with (@nil (string * bool)).
    - destruct obj as [[v [|]]|]; reflexivity.
    - induction l as [|[x v] l IH]; [reflexivity|]. exact IH.
  Qed.
  Lemma extension_symbols l obj s : s ∈ extension_of l obj ->
    (exists n p, s = SFun n (sargs s) p /\ p = true) /\ py_match s "__lpx" 2 = smatch s "__lpx" 2 /\ (smatch s "__lpx" 2 = true -> as_pair s <> None).
  Proof.
    unfold extension_of. rewrite elem_of_app. intros [H|H].
    - apply elem_of_list_fmap in H as ([x v] & -> & _). split; [do 2 eexists; split; reflexivity|]. split; [reflexivity|]. intros _. discriminate.
    - destruct obj as [[v b]|]; [|inversion H]. rewrite elem_of_cons, elem_of_nil in H. destruct H as [->|[]].
      split; [do 2 eexists; split; reflexivity|]. split; [reflexivity|]. intros E. discriminate E.
  Qed.
  Lemma singleton_perm {A} (l : list A) o : l ≡ₚ o -> length o <= 1 -> l = o.
  Proof.
    intros H Hl. destruct o as [|x [|? ?]]; [apply Permutation_sym in H; now apply Permutation_nil in H|now apply Permutation_singleton_r in H|cbn in Hl; lia].
  Qed.

  Lemma printed shown l obj : exists l', l' ≡ₚ l /\ ascending less (map fst l') /\ ascending less (srt shown) /\ srt shown ≡ₚ shown /\
    (exists s, answer show (srt shown) (map (fun '(x, v) => (x, pv v)) l') s /\
       print_model show srt shown (extension_of l obj) = s ++ objective_line (match obj with Some (v, b) => Some (pv v, b) | None => None end) ++ ["010"%char] /\
       py_print_model show srt shown (extension_of l obj) = Some (s ++ ["010"%char])).
  Proof.
    set (th := extension_of l obj).
    assert (Hp : omap as_pair (srt th) ≡ₚ map (fun '(x, v) => (x, string_of_list_ascii (pv v))) l).
    { rewrite <- (extension_pairs l obj). apply omap_perm, srt_perm. }
    destruct (Permutation_map_inv _ _ Hp) as (l' & El & Hl).
    assert (Hs : forall s, s ∈ srt th -> s ∈ th) by (intros s Hs; rewrite <- (srt_perm th); exact Hs).
    exists l'. split; [now symmetry|]. split; [|split; [apply srt_sorted|split; [apply srt_perm|]]].
    - assert (Ha : ascending (fun p p' : symbol * string => less (fst p) (fst p')) (omap as_pair (srt th))).
      { apply omap_ascending; [apply srt_sorted|]. intros s H. apply (extension_symbols l obj s (Hs s H)). }
      rewrite El in Ha. intros i j a b Hi Hj Hij. rewrite list_lookup_fmap in Hi, Hj.
      destruct (l' !! i) as [[xa va]|] eqn:Ei; [|discriminate]. destruct (l' !! j) as [[xb vb]|] eqn:Ej; [|discriminate].
      injection Hi as <-. injection Hj as <-. cbn [fst].
      apply (Ha i j (xa, string_of_list_ascii (pv va)) (xb, string_of_list_ascii (pv vb))); [..|exact Hij]; rewrite list_lookup_fmap, ?Ei, ?Ej; reflexivity.
    - assert (Ho : omap as_obj (srt th) = match obj with Some (v, b) => [(string_of_list_ascii (pv v), b)] | None => [] end).
      { rewrite <- (extension_obj l obj). apply singleton_perm; [apply omap_perm, srt_perm|]. rewrite extension_obj. destruct obj as [[v b]|]; cbn; lia. }
      assert (Ee : map (fun p : symbol * string => entry p) (omap as_pair (srt th)) = map (fun '(x, v) => show x ++ "="%char :: v) (map (fun '(x, v) => (x, pv v)) l')).
      { rewrite El, !map_map. apply map_ext. intros [x v]. cbn [fst snd]. now rewrite string_text. }
      exists (join (map show (srt shown)) ++ nl ++ list_ascii_of_string "Assignment:" ++ nl ++ join (map (fun p : symbol * string => entry p) (omap as_pair (srt th)))).
      split; [|split].
      + exists (join (map show (srt shown))), (join (map (fun p : symbol * string => entry p) (omap as_pair (srt th)))).
        split; [apply words_join|]. split; [rewrite Ee; apply words_join|]. reflexivity.
      + unfold print_model. rewrite assignment_join, shown_join, Ho. cbn [app].
        rewrite <- !app_assoc. do 5 f_equal. destruct obj as [[v [|]]|]; cbn [last objective_line]; rewrite ?string_text; unfold nl; cbn [list_ascii_of_string app]; rewrite <- ?app_assoc; reflexivity.
      + unfold py_print_model. rewrite py_join; [|intros s H; apply (extension_symbols l obj s (Hs s H))]. rewrite <- !app_assoc. reflexivity.
  Qed.
End printed.

(** ** C47 *)
Section sessions.
  Context {V} {IV : Value V} {VL : ValueLaws V}.
  (** In every state of every session the symbols handed to clingo for a model
      make the C++ application print exactly this: the shown symbols in
      ascending order, every variable of the program once, in ascending order,
      with the text of its value, and the objective if there is one.  The Python
      application prints the same without the objective. *)
  Theorem C47_printed_answer (pv : V -> list ascii) show less srt o sh w t shown :
    (forall l, srt l ≡ₚ l) -> (forall l, ascending less (srt l)) ->
    (forall n x y l l' pos, less x y = true -> less (SFun n (x :: l) pos) (SFun n (y :: l') pos) = true) ->
    step_ok (V := V) o -> reach_any o sh w -> t < length (w_th w) ->
    exists theory shown' assignment obj s,
      extension pv (w_p w) t = Ok theory /\
      print_model show srt shown theory = s ++ objective_line obj ++ ["010"%char] /\
      py_print_model show srt shown theory = Some (s ++ ["010"%char]) /\
      answer show shown' (map (fun '(x, v) => (x, pv v)) assignment) s /\
      shown' ≡ₚ shown /\ ascending less shown' /\
      NoDup (map fst assignment) /\ ascending less (map fst assignment) /\
      (forall x v, (x, v) ∈ assignment <-> is_number x = false /\ exists i, f_lookup (w_p w) x = Some i /\ f_get_value (w_p w) t i = Ok v) /\
      (exists ob, p_get_objective (w_p w) t = Ok ob /\ obj = match ob with Some (v, b) => Some (pv v, b) | None => None end).
  Proof.
    intros Hp Hs Hl So Hr Ht. destruct (C28_extend_model o sh w t So Hr Ht) as (l & ob & E & Eo & Hn & Hv).
    destruct (printed pv show less srt Hp Hs Hl shown l ob) as (l' & Hl' & Ha & Hsa & Hsp & s & Han & Hm & Hy).
    exists (extension_of pv l ob), (srt shown), l', (match ob with Some (v, b) => Some (pv v, b) | None => None end), s.
    split; [unfold extension; rewrite E; reflexivity|]. split; [exact Hm|]. split; [exact Hy|]. split; [exact Han|]. split; [exact Hsp|]. split; [exact Hsa|].
    split; [rewrite (Permutation_map fst Hl'); exact Hn|]. split; [exact Ha|]. split; [|eauto].
    intros x v. rewrite Hl'. apply Hv.
  Qed.
End sessions.

(** The final state of the program in Props_Program.v, with the variables sorted by the first letter of a symbol. *)
Fixpoint key (s : symbol) : nat :=
  match s with
  | SFun _ (x :: _) _ => key x
  | SFun n [] _ | SStr n => match n with String c _ => nat_of_ascii c | EmptyString => 0 end
  | SNum z => 0
  end.
Definition ex_less (x y : symbol) : bool := key x <? key y.
Definition key_le (x y : symbol) : Prop := key x <= key y.
Global Instance key_le_dec x y : Decision (key_le x y) := le_dec (key x) (key y).
Definition ex_sort : list symbol -> list symbol := merge_sort key_le.
Definition ex_show (s : symbol) : list ascii := match s with SFun n _ _ => list_ascii_of_string n | _ => [] end.
Lemma ex_sort_perm l : ex_sort l ≡ₚ l.
Proof. apply merge_sort_Permutation. Qed.
Lemma sorted_ascending (l : list symbol) : StronglySorted key_le l -> ascending ex_less l.
Proof.
  induction 1 as [|x l H IH F]; intros i j a b Hi Hj Hij; [discriminate|]. destruct i as [|i], j as [|j]; try lia; cbn in Hi, Hj.
  - injection Hi as <-. unfold ex_less. apply Nat.ltb_ge. rewrite Forall_forall in F. apply F. eapply elem_of_list_lookup_2; eassumption.
  - apply (IH i j a b Hi Hj). lia.
Qed.
Lemma ex_sort_sorted l : ascending ex_less (ex_sort l).
Proof.
  apply sorted_ascending, StronglySorted_merge_sort.
  - intros x y z. unfold key_le. lia.
  - intros x y. unfold key_le. lia.
Qed.
Lemma ex_less_args n x y l l' pos : ex_less x y = true -> ex_less (SFun n (x :: l) pos) (SFun n (y :: l') pos) = true.
Proof. auto. Qed.
Definition text_of (w0 : option (world RatQ symbol)) (evs : list event) : option string :=
  match w0 with
  | Some w0 => match runs 50 pgm_opts evs w0 with
      | Some w => match extension print_ratq (w_p w) 0 with
          | Ok th => Some (string_of_list_ascii (print_model ex_show ex_sort [SFun "b" [] true; SFun "a" [] true] th))
          | _ => None end
      | None => None end
  | None => None
  end.
Definition ex_printed : string := "a b
Assignment:
x=3+-1*e y=0
Optimization: 3+-1*e [bounded]
".
Lemma ex_text_is : text_of pgm_first [pgm_prop; pgm_check] = Some ex_printed.
Proof. vm_compute. reflexivity. Qed.
Lemma C47_example_aux w0 evs txt : (forall w, w0 = Some w -> reach pgm_opts pgm_shot w) -> text_of w0 evs = Some txt ->
  exists w th, reach_any pgm_opts pgm_shot w /\ extension print_ratq (w_p w) 0 = Ok th /\
    string_of_list_ascii (print_model ex_show ex_sort [SFun "b" [] true; SFun "a" [] true] th) = txt.
Proof.
  unfold text_of. intros Hr E. destruct w0 as [w0|]; [|discriminate]. specialize (Hr w0 eq_refl). destruct (runs 50 pgm_opts evs w0) as [w|] eqn:E1; [|discriminate].
  destruct (extension print_ratq (w_p w) 0) as [th| | |] eqn:E2; try discriminate. injection E as E.
  exists w, th. split; [apply reach_reach_any; exact (runs_reach _ _ _ _ _ _ Hr E1)|]. split; [exact E2|exact E].
Qed.
Example C47_example : exists w th, reach_any pgm_opts pgm_shot w /\ extension print_ratq (w_p w) 0 = Ok th /\
  string_of_list_ascii (print_model ex_show ex_sort [SFun "b" [] true; SFun "a" [] true] th) = ex_printed.
Proof.
  assert (Hr : forall w, pgm_first = Some w -> reach pgm_opts pgm_shot w) by (intros w; exact (first_of_ok pgm_shot _ w pgm_shot_ok eq_refl eq_refl)).
  exact (C47_example_aux pgm_first [pgm_prop; pgm_check] ex_printed Hr ex_text_is).
Qed.
