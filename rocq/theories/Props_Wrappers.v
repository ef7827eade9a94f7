(** * C45: the arithmetic wrappers are exact in every overload

    The specification is the mathematical operation on [Qc] and [Z] together
    with what C++ code may rely on about the objects involved: which object
    holds the result, what remains of a moved-from operand, and that nothing
    else changes. *)

From Verif Require Import Num Wrappers.

(** ** Specification *)

(** [o] is an object whose value is [x], in lowest terms. *)
Definition rat_at (st : store) (o : rational) (x : Qc) : Prop :=
  ro_num o <> ro_den o /\ st !! ro_num o = Some (Qnum (this x)) /\ st !! ro_den o = Some (Zpos (Qden (this x))).
Definition int_at (st : store) (i : integer) (z : Z) : Prop := st !! i = Some z.

(** The value of an argument that a Rational is combined with. *)
Definition rat_arg (st : store) (b : arg) (y : Qc) : Prop :=
  match b with
  | Fixed v => y = zq v
  | AnInt i => exists z, int_at st i z /\ y = zq z
  | ARat o => rat_at st o y
  end.
Definition int_arg (st : store) (b : arg) (y : Z) : Prop :=
  match b with
  | Fixed v => y = v
  | AnInt i => int_at st i y
  | ARat o => False
  end.

(** Operands are the same object or share no memory. *)
Definition apart (a : rational) (b : arg) : Prop :=
  match b with
  | Fixed _ => True
  | AnInt i => i ∉ [ro_num a; ro_den a]
  | ARat o => o = a \/ (ro_num o ∉ [ro_num a; ro_den a] /\ ro_den o ∉ [ro_num a; ro_den a])
  end.

Definition q_op (op : aop) (x y : Qc) : Qc :=
  match op with Add => (x + y)%Qc | Sub => (x - y)%Qc | Mul => (x * y)%Qc | Div => (x / y)%Qc end.
Definition z_op (op : aop) (x y : Z) : Z :=
  match op with Add => (x + y)%Z | Sub => (x - y)%Z | Mul => (x * y)%Z | Div => (x ÷ y)%Z end.

Definition q_rel (r : rop) (x y : Qc) : Prop :=
  match r with
  | OLt => (x < y)%Qc | OLe => (x <= y)%Qc | OGt => (y < x)%Qc | OGe => (y <= x)%Qc
  | OEq => x = y | ONe => x <> y
  end.
Definition z_rel (r : rop) (x y : Z) : Prop :=
  match r with
  | OLt => (x < y)%Z | OLe => (x <= y)%Z | OGt => (y < x)%Z | OGe => (y <= x)%Z
  | OEq => x = y | ONe => x <> y
  end.

(** All cells that existed in [st], except those in [X], keep their value. *)
Definition unchanged (X : list integer) (st st' : store) : Prop :=
  forall i z, i ∉ X -> st !! i = Some z -> st' !! i = Some z.
Definition new_cell (st : store) (i : integer) : Prop := length st <= i.

(** The outcome of an operator of form [f] with left operand [a] and value [v]. *)
Definition rat_outcome (f : form) (st : store) (a : rational) (v : Qc) (c : rational) (st' : store) : Prop :=
  rat_at st' c v /\
  match f with
  | Copy => (new_cell st (ro_num c) /\ new_cell st (ro_den c)) /\ unchanged [] st st'
  | Move => (new_cell st (ro_num c) /\ new_cell st (ro_den c)) /\
            unchanged [ro_num a; ro_den a] st st' /\ (exists w, rat_at st' a w)
  | Assign => c = a /\ unchanged [ro_num a; ro_den a] st st'
  end.
Definition int_outcome (f : form) (st : store) (a : integer) (v : Z) (c : integer) (st' : store) : Prop :=
  int_at st' c v /\
  match f with
  | Copy => new_cell st c /\ unchanged [] st st'
  | Move => new_cell st c /\ unchanged [a] st st' /\ (exists w, int_at st' a w)
  | Assign => c = a /\ unchanged [a] st st'
  end.

(** ** Proofs *)

Definition setq (o : rational) (q : Qc) (st : store) : store :=
  <[ro_den o := Zpos (Qden (this q))]> (<[ro_num o := Qnum (this q)]> st).
Definition cells_ok (st : store) (o : rational) : Prop :=
  ro_num o <> ro_den o /\ ro_num o < length st /\ ro_den o < length st.
Definition agree (st st' : store) : Prop := unchanged [] st st'.

Lemma bindM_ok {A B} (m : M A) (f : A -> M B) st a st1 : m st = Ok (a, st1) -> (m ≫= f) st = f a st1.
Proof. intros H. unfold mbind, M_bind. now rewrite H. Qed.
Lemma rdz_ok st i z : st !! i = Some z -> rdz i st = Ok (z, st).
Proof. intros H. unfold rdz. now rewrite H. Qed.
Lemma wrz_ok st i z : i < length st -> wrz i z st = Ok (tt, <[i := z]> st).
Proof. intros H. unfold wrz. destruct (st !! i) eqn:E; [reflexivity|]. apply lookup_ge_None in E. lia. Qed.

Lemma canonical_this (x : Qc) : canonical (Qnum (this x)) (Zpos (Qden (this x))) = true.
Proof.
  unfold canonical. apply andb_true_intro. split; [reflexivity|].
  apply Z.eqb_eq. pose proof (canon x) as Hc. apply Qred_iff in Hc. exact Hc.
Qed.
Lemma rdq_ok st o x : rat_at st o x -> rdq o st = Ok (x, st).
Proof.
  intros (_ & Hn & Hd). unfold rdq.
  rewrite (bindM_ok _ _ _ _ _ (rdz_ok _ _ _ Hn)), (bindM_ok _ _ _ _ _ (rdz_ok _ _ _ Hd)).
  rewrite canonical_this. unfold mret, M_ret. f_equal. f_equal.
  cbn [Z.to_pos]. apply Qc_is_canon. destruct x as [[n d] Hx]. cbn. now rewrite Qred_correct.
Qed.
Lemma wrq_ok st o q : cells_ok st o -> wrq o q st = Ok (tt, setq o q st).
Proof.
  intros (_ & Hn & Hd). unfold wrq. rewrite (bindM_ok _ _ _ _ _ (wrz_ok _ _ _ Hn)).
  apply wrz_ok. now rewrite insert_length.
Qed.

Lemma agree_refl st : agree st st.
Proof. intros i z _ H. exact H. Qed.
Lemma unchanged_trans X st1 st2 st3 : unchanged X st1 st2 -> unchanged X st2 st3 -> unchanged X st1 st3.
Proof. intros H1 H2 i z Hi H. eauto. Qed.
Lemma unchanged_weaken X Y st st' : (forall i, i ∈ X -> i ∈ Y) -> unchanged X st st' -> unchanged Y st st'.
Proof. intros HXY H i z Hi. apply H. auto. Qed.
Lemma agree_app st l : agree st (st ++ l).
Proof. intros i z _ H. now apply lookup_app_l_Some. Qed.
Lemma agree_unchanged X st st' : agree st st' -> unchanged X st st'.
Proof. apply unchanged_weaken. intros i Hi. inversion Hi. Qed.
Lemma agree_length st st' : agree st st' -> length st <= length st'.
Proof.
  intros H. destruct (decide (length st = 0)) as [->|Hn]; [lia|].
  destruct (lookup_lt_is_Some_2 st (length st - 1)) as [z Hz]; [lia|].
  apply H in Hz; [|intros Hi; inversion Hi]. apply lookup_lt_Some in Hz. lia.
Qed.
Lemma rat_at_agree st st' o x : agree st st' -> rat_at st o x -> rat_at st' o x.
Proof. intros H (Hne & Hn & Hd). split; [exact Hne|]. split; (apply H; [intros Hi; inversion Hi|assumption]). Qed.
Lemma int_at_agree st st' o x : agree st st' -> int_at st o x -> int_at st' o x.
Proof. intros H Hn. apply H; [intros Hi; inversion Hi|assumption]. Qed.
Lemma rat_at_cells st o x : rat_at st o x -> cells_ok st o.
Proof. intros (Hne & Hn & Hd). split; [exact Hne|]. split; eapply lookup_lt_Some; eassumption. Qed.

Lemma setq_at st o q : cells_ok st o -> rat_at (setq o q st) o q.
Proof.
  intros (Hne & Hn & Hd). split; [exact Hne|]. unfold setq. split.
  - rewrite list_lookup_insert_ne by auto. now apply list_lookup_insert.
  - apply list_lookup_insert. now rewrite insert_length.
Qed.
Lemma setq_unchanged st o q : unchanged [ro_num o; ro_den o] st (setq o q st).
Proof.
  intros i z Hi H. unfold setq. rewrite !list_lookup_insert_ne; [exact H| |]; intros E; apply Hi; rewrite <- E, !elem_of_cons; auto.
Qed.
Lemma setq_agree st st1 o q : agree st st1 -> new_cell st (ro_num o) -> new_cell st (ro_den o) -> agree st (setq o q st1).
Proof.
  unfold new_cell. intros H Hn Hd i z Hi Hz. pose proof (lookup_lt_Some _ _ _ Hz) as Hl.
  unfold setq. rewrite !list_lookup_insert_ne by lia. now apply H.
Qed.
Lemma insert_agree st st1 i v : agree st st1 -> new_cell st i -> agree st (<[i := v]> st1).
Proof.
  unfold new_cell. intros H Hn j z Hj Hz. pose proof (lookup_lt_Some _ _ _ Hz) as Hl.
  rewrite !list_lookup_insert_ne by lia. now apply H.
Qed.
Lemma insert_unchanged st i v : unchanged [i] st (<[i := v]> st).
Proof. intros j z Hj H. rewrite list_lookup_insert_ne; [exact H|]. intros E. apply Hj. rewrite <- E. left. Qed.

(** *** Fresh objects *)
Definition fresh_R : M rational := n ← newz 0; d ← newz 1; mret (RObj n d).
Lemma fresh_R_ok st : fresh_R st = Ok (RObj (length st) (S (length st)), (st ++ [0%Z]) ++ [1%Z]).
Proof.
  unfold fresh_R, newz, mbind, M_bind, mret, M_ret. do 4 f_equal. rewrite app_length. cbn. lia.
Qed.
Lemma fresh_cells st : let c := RObj (length st) (S (length st)) in let st1 := (st ++ [0%Z]) ++ [1%Z] in
  cells_ok st1 c /\ rat_at st1 c 0%Qc /\ agree st st1 /\ new_cell st (ro_num c) /\ new_cell st (ro_den c).
Proof.
  cbv zeta.
  assert (Hl : cells_ok ((st ++ [0%Z]) ++ [1%Z]) (RObj (length st) (S (length st)))).
  { split; [cbn; lia|]. rewrite !app_length. cbn. lia. }
  split; [exact Hl|]. split.
  - split; [cbn; lia|]. cbn [ro_num ro_den]. split.
    + rewrite lookup_app_l by (rewrite app_length; cbn; lia). now rewrite lookup_app_r, Nat.sub_diag by lia.
    + rewrite lookup_app_r by (rewrite app_length; cbn; lia). rewrite app_length. cbn [length].
      now replace (S (length st) - (length st + 1)) with 0 by lia.
  - split; [|split; unfold new_cell; cbn; lia]. rewrite <- app_assoc. apply agree_app.
Qed.
Lemma newz_cells st z : newz z st = Ok (length st, st ++ [z]) /\ int_at (st ++ [z]) (length st) z /\
  agree st (st ++ [z]) /\ new_cell st (length st) /\ length st < length (st ++ [z]).
Proof.
  split; [reflexivity|]. split; [unfold int_at; now rewrite lookup_app_r, Nat.sub_diag by lia|].
  split; [apply agree_app|]. split; [unfold new_cell; lia|]. rewrite app_length. cbn. lia.
Qed.

(** *** A function of the library that stores [v] in its destination *)
Definition computes_R (g : rational -> M unit) (st : store) (v : Qc) : Prop :=
  forall st1 c, agree st st1 -> cells_ok st1 c -> g c st1 = Ok (tt, setq c v st1).
Definition computes_I (g : integer -> M unit) (st : store) (v : Z) : Prop :=
  forall st1 c, agree st st1 -> c < length st1 -> g c st1 = Ok (tt, <[c := v]> st1).

Lemma form_copy_R g st a v : computes_R g st v ->
  exists c st', (c ← fresh_R; _ ← g c; mret c) st = Ok (c, st') /\ rat_outcome Copy st a v c st'.
Proof.
  intros Hg. rewrite (bindM_ok _ _ _ _ _ (fresh_R_ok st)). destruct (fresh_cells st) as (Hc & _ & Ha & Hn & Hd).
  rewrite (bindM_ok _ _ _ _ _ (Hg _ _ Ha Hc)). eexists _, _. split; [reflexivity|].
  split; [now apply setq_at|]. split; [auto|]. now apply setq_agree.
Qed.
Lemma form_assign_R (m : M unit) st a x v : (cells_ok st a -> m st = Ok (tt, setq a v st)) -> rat_at st a x ->
  exists c st', (_ ← m; mret a) st = Ok (c, st') /\ rat_outcome Assign st a v c st'.
Proof.
  intros Hg Hx. pose proof (rat_at_cells _ _ _ Hx) as Hc. rewrite (bindM_ok _ _ _ _ _ (Hg Hc)).
  eexists _, _. split; [reflexivity|]. split; [now apply setq_at|]. split; [reflexivity|apply setq_unchanged].
Qed.
Lemma form_copy_I g st a v : computes_I g st v ->
  exists c st', (c ← newz 0; _ ← g c; mret c) st = Ok (c, st') /\ int_outcome Copy st a v c st'.
Proof.
  intros Hg. destruct (newz_cells st 0) as (Hw & _ & Ha & Hn & Hl). rewrite (bindM_ok _ _ _ _ _ Hw).
  rewrite (bindM_ok _ _ _ _ _ (Hg _ _ Ha Hl)). eexists _, _. split; [reflexivity|].
  split; [now apply list_lookup_insert|]. split; [auto|]. now apply insert_agree.
Qed.
Lemma form_assign_I (m : M unit) st a x v : (a < length st -> m st = Ok (tt, <[a := v]> st)) -> int_at st a x ->
  exists c st', (_ ← m; mret a) st = Ok (c, st') /\ int_outcome Assign st a v c st'.
Proof.
  intros Hg Hx. pose proof (lookup_lt_Some _ _ _ Hx) as Hc. rewrite (bindM_ok _ _ _ _ _ (Hg Hc)).
  eexists _, _. split; [reflexivity|]. split; [now apply list_lookup_insert|]. split; [reflexivity|apply insert_unchanged].
Qed.

(** Swapping. *)
Definition swapz (a b : integer) : M unit := x ← rdz a; y ← rdz b; _ ← wrz a y; wrz b x.
Lemma swapz_ok st a b x y : int_at st a x -> int_at st b y ->
  swapz a b st = Ok (tt, <[b := x]> (<[a := y]> st)).
Proof.
  intros Hx Hy. unfold swapz.
  rewrite (bindM_ok _ _ _ _ _ (rdz_ok _ _ _ Hx)), (bindM_ok _ _ _ _ _ (rdz_ok _ _ _ Hy)).
  rewrite (bindM_ok _ _ _ _ _ (wrz_ok _ _ _ (lookup_lt_Some _ _ _ Hx))). apply wrz_ok.
  rewrite insert_length. exact (lookup_lt_Some _ _ _ Hy).
Qed.
Definition swap_R (a b : rational) : M unit := _ ← swapz (ro_num a) (ro_num b); swapz (ro_den a) (ro_den b).

(** Objects that share no memory. *)
Definition distinct (a b : rational) : Prop :=
  ro_num a <> ro_num b /\ ro_num a <> ro_den b /\ ro_den a <> ro_num b /\ ro_den a <> ro_den b.

Lemma swap_R_ok st a b x y : rat_at st a x -> rat_at st b y -> distinct a b ->
  exists st', swap_R a b st = Ok (tt, st') /\ rat_at st' a y /\ rat_at st' b x /\
    unchanged [ro_num a; ro_den a; ro_num b; ro_den b] st st'.
Proof.
  intros (Hna & Ha1 & Ha2) (Hnb & Hb1 & Hb2) (H1 & H2 & H3 & H4). unfold swap_R.
  rewrite (bindM_ok _ _ _ _ _ (swapz_ok _ _ _ _ _ Ha1 Hb1)).
  erewrite swapz_ok; cycle 1.
  { unfold int_at. rewrite !list_lookup_insert_ne by auto. exact Ha2. }
  { unfold int_at. rewrite !list_lookup_insert_ne by auto. exact Hb2. }
  eexists. split; [reflexivity|].
  pose proof (lookup_lt_Some _ _ _ Ha1). pose proof (lookup_lt_Some _ _ _ Ha2).
  pose proof (lookup_lt_Some _ _ _ Hb1). pose proof (lookup_lt_Some _ _ _ Hb2).
  split; [|split].
  - split; [exact Hna|]. split.
    + rewrite 3!list_lookup_insert_ne by auto. now apply list_lookup_insert.
    + rewrite list_lookup_insert_ne by auto. apply list_lookup_insert. now rewrite !insert_length.
  - split; [exact Hnb|]. split.
    + rewrite 2!list_lookup_insert_ne by auto. apply list_lookup_insert. now rewrite !insert_length.
    + apply list_lookup_insert. now rewrite !insert_length.
  - intros i z Hi Hz. rewrite !list_lookup_insert_ne; [exact Hz| | | |];
      intros E; apply Hi; rewrite <- E, !elem_of_cons; auto.
Qed.

Definition mv_R (a : rational) : M rational := c ← fresh_R; _ ← swap_R c a; mret c.
Lemma mv_R_ok st a x : rat_at st a x ->
  exists c st', mv_R a st = Ok (c, st') /\ rat_at st' c x /\ (new_cell st (ro_num c) /\ new_cell st (ro_den c)) /\
    unchanged [ro_num a; ro_den a] st st' /\ rat_at st' a 0%Qc.
Proof.
  intros Hx. unfold mv_R. rewrite (bindM_ok _ _ _ _ _ (fresh_R_ok st)).
  destruct (fresh_cells st) as (Hc & H0 & Ha & Hn & Hd).
  destruct (rat_at_cells _ _ _ Hx) as (_ & Hl1 & Hl2).
  destruct (swap_R_ok _ _ a _ x H0) as (st' & E & Hcx & Ha0 & Hu).
  { now apply (rat_at_agree st). } { unfold distinct. cbn [ro_num ro_den]. lia. }
  rewrite (bindM_ok _ _ _ _ _ E). eexists _, _. split; [reflexivity|].
  split; [exact Hcx|]. split; [auto|]. split; [|exact Ha0].
  intros i z Hi Hz. pose proof (lookup_lt_Some _ _ _ Hz) as Hl.
  apply Hu.
  - rewrite !elem_of_cons. cbn [ro_num ro_den]. rewrite !elem_of_cons in Hi.
    intros [?|[?|?]]; [lia|lia|]. now apply Hi.
  - apply Ha; [intros Hj; inversion Hj|exact Hz].
Qed.
Definition mv_I (a : integer) : M integer := c ← newz 0; _ ← swapz c a; mret c.
Lemma mv_I_ok st a x : int_at st a x ->
  exists c st', mv_I a st = Ok (c, st') /\ int_at st' c x /\ new_cell st c /\
    unchanged [a] st st' /\ int_at st' a 0.
Proof.
  intros Hx. unfold mv_I. destruct (newz_cells st 0) as (Hw & H0 & Ha & Hn & Hl). rewrite (bindM_ok _ _ _ _ _ Hw).
  pose proof (lookup_lt_Some _ _ _ Hx) as Hla.
  rewrite (bindM_ok _ _ _ _ _ (swapz_ok _ _ _ _ _ H0 (int_at_agree _ _ _ _ Ha Hx))).
  eexists _, _. split; [reflexivity|]. split.
  { unfold int_at. rewrite list_lookup_insert_ne by lia. now apply list_lookup_insert. }
  split; [exact Hn|]. split.
  - intros i z Hi Hz. pose proof (lookup_lt_Some _ _ _ Hz) as Hli. rewrite !list_lookup_insert_ne.
    + apply Ha; [intros Hj; inversion Hj|exact Hz].
    + lia.
    + intros E. apply Hi. rewrite <- E. left.
  - apply list_lookup_insert. rewrite insert_length. lia.
Qed.

Lemma rat_outcome_assign_length st a v c st' : rat_outcome Assign st a v c st' -> (exists x, rat_at st a x) -> length st <= length st'.
Proof.
  intros (Hv & -> & Hu) [x Hx]. destruct (rat_at_cells _ _ _ Hv) as (_ & Hl1 & Hl2).
  destruct (decide (length st = 0)) as [->|Hn]; [lia|].
  destruct (lookup_lt_is_Some_2 st (length st - 1)) as [z Hz]; [lia|].
  destruct (decide (length st - 1 ∈ [ro_num a; ro_den a])) as [Hi|Hi].
  - rewrite !elem_of_cons, elem_of_nil in Hi. destruct Hi as [Hi|[Hi|[]]]; lia.
  - apply Hu in Hz; [|exact Hi]. apply lookup_lt_Some in Hz. lia.
Qed.
Lemma int_outcome_assign_length st a v c st' : int_outcome Assign st a v c st' -> length st <= length st'.
Proof.
  intros (Hv & -> & Hu). pose proof (lookup_lt_Some _ _ _ Hv) as Hl1.
  destruct (decide (length st = 0)) as [->|Hn]; [lia|].
  destruct (lookup_lt_is_Some_2 st (length st - 1)) as [z Hz]; [lia|].
  destruct (decide (length st - 1 ∈ [a])) as [Hi|Hi].
  - rewrite !elem_of_cons, elem_of_nil in Hi. destruct Hi as [Hi|[]]; lia.
  - apply Hu in Hz; [|exact Hi]. apply lookup_lt_Some in Hz. lia.
Qed.

Lemma form_move_R (m : M rational) st a x v : rat_at st a x ->
  (exists c st', m st = Ok (c, st') /\ rat_outcome Assign st a v c st') ->
  exists c st', (r ← m; mv_R r) st = Ok (c, st') /\ rat_outcome Move st a v c st'.
Proof.
  intros Hx (c & st1 & E & Ho). pose proof (rat_outcome_assign_length _ _ _ _ _ Ho (ex_intro _ x Hx)) as Hl.
  destruct Ho as (Hv & -> & Hu). rewrite (bindM_ok _ _ _ _ _ E).
  destruct (mv_R_ok _ _ _ Hv) as (c & st' & E2 & Hc & (Hn & Hd) & Hu2 & H0). rewrite E2.
  eexists _, _. split; [reflexivity|]. split; [exact Hc|]. unfold new_cell in *.
  split; [lia|]. split; [now apply (unchanged_trans _ _ st1)|eauto].
Qed.
Lemma form_move_I (m : M integer) st a v :
  (exists c st', m st = Ok (c, st') /\ int_outcome Assign st a v c st') ->
  exists c st', (r ← m; mv_I r) st = Ok (c, st') /\ int_outcome Move st a v c st'.
Proof.
  intros (c & st1 & E & Ho). pose proof (int_outcome_assign_length _ _ _ _ _ Ho) as Hl.
  destruct Ho as (Hv & -> & Hu). rewrite (bindM_ok _ _ _ _ _ E).
  destruct (mv_I_ok _ _ _ Hv) as (c & st' & E2 & Hc & Hn & Hu2 & H0). rewrite E2.
  eexists _, _. split; [reflexivity|]. split; [exact Hc|]. unfold new_cell in *.
  split; [lia|]. split; [now apply (unchanged_trans _ _ st1)|eauto].
Qed.

(** A temporary. *)
Lemma outcome_weaken_R f st st1 a v c st' : agree st st1 -> rat_outcome f st1 a v c st' -> rat_outcome f st a v c st'.
Proof.
  intros Ha (Hv & Ho). pose proof (agree_length _ _ Ha) as Hl. split; [exact Hv|]. unfold new_cell in *. destruct f.
  - destruct Ho as (? & Hu). split; [lia|]. eapply unchanged_trans; [apply Ha|exact Hu].
  - destruct Ho as (? & Hu & He). split; [lia|]. split; [|exact He].
    eapply unchanged_trans; [apply agree_unchanged, Ha|exact Hu].
  - destruct Ho as (-> & Hu). split; [reflexivity|]. eapply unchanged_trans; [apply agree_unchanged, Ha|exact Hu].
Qed.
Lemma outcome_weaken_I f st st1 a v c st' : agree st st1 -> int_outcome f st1 a v c st' -> int_outcome f st a v c st'.
Proof.
  intros Ha (Hv & Ho). pose proof (agree_length _ _ Ha) as Hl. split; [exact Hv|]. unfold new_cell in *. destruct f.
  - destruct Ho as (? & Hu). split; [lia|]. eapply unchanged_trans; [apply Ha|exact Hu].
  - destruct Ho as (? & Hu & He). split; [lia|]. split; [|exact He].
    eapply unchanged_trans; [apply agree_unchanged, Ha|exact Hu].
  - destruct Ho as (-> & Hu). split; [reflexivity|]. eapply unchanged_trans; [apply agree_unchanged, Ha|exact Hu].
Qed.

(** The constructors, in either library. *)
Definition mk_I (v : Z) : M integer := c ← newz 0; _ ← wrz c v; mret c.
Definition mk_R (v : Z) : M rational := c ← fresh_R; _ ← wrq c (zq v); mret c.
Lemma mk_I_ok st v : exists c st', mk_I v st = Ok (c, st') /\ int_at st' c v /\ new_cell st c /\ agree st st'.
Proof.
  destruct (form_copy_I (fun c => wrz c v) st 0 v) as (c & st' & E & Hv & Hn & Hu).
  { intros st1 c _ Hl. now apply wrz_ok. }
  exists c, st'. auto.
Qed.
Lemma mk_R_ok st v : exists c st', mk_R v st = Ok (c, st') /\ rat_at st' c (zq v) /\
  (new_cell st (ro_num c) /\ new_cell st (ro_den c)) /\ agree st st'.
Proof.
  destruct (form_copy_R (fun c => wrq c (zq v)) st (RObj 0 0) (zq v)) as (c & st' & E & Hv & Hn & Hu).
  { intros st1 c _ Hl. now apply wrq_ok. }
  exists c, st'. auto.
Qed.

Lemma with_temp_I {A} (K : integer -> M A) st v (P : A -> store -> Prop) :
  (forall t st1, agree st st1 -> int_at st1 t v -> new_cell st t -> exists c st', K t st1 = Ok (c, st') /\ P c st') ->
  exists c st', (t ← mk_I v; K t) st = Ok (c, st') /\ P c st'.
Proof.
  intros HK. destruct (mk_I_ok st v) as (t & st1 & E & Ht & Hn & Ha). rewrite (bindM_ok _ _ _ _ _ E).
  now apply HK.
Qed.
Lemma with_temp_R {A} (K : rational -> M A) st v (P : A -> store -> Prop) :
  (forall t st1, agree st st1 -> rat_at st1 t (zq v) -> exists c st', K t st1 = Ok (c, st') /\ P c st') ->
  exists c st', (t ← mk_R v; K t) st = Ok (c, st') /\ P c st'.
Proof.
  intros HK. destruct (mk_R_ok st v) as (t & st1 & E & Ht & Hn & Ha). rewrite (bindM_ok _ _ _ _ _ E).
  now apply HK.
Qed.

(** *** The functions of the libraries compute what their operands say *)
Ltac rd := (erewrite bindM_ok by (first [apply rdz_ok | apply rdq_ok]; eassumption)).
Ltac transport Ha :=
  repeat match goal with
         | [ H : rat_at ?st ?o ?x, Ha' : agree ?st ?st1 |- _ ] =>
             lazymatch goal with
             | [ _ : rat_at st1 o x |- _ ] => fail
             | _ => pose proof (rat_at_agree _ _ _ _ Ha' H)
             end
         | [ H : int_at ?st ?o ?x, Ha' : agree ?st ?st1 |- _ ] =>
             lazymatch goal with
             | [ _ : int_at st1 o x |- _ ] => fail
             | _ => pose proof (int_at_agree _ _ _ _ Ha' H)
             end
         end.
Ltac nonzero :=
  match goal with
  | |- context [Qc_eq_bool ?y 0] =>
      let E := fresh in destruct (Qc_eq_bool y 0) eqn:E; [apply Qc_eq_bool_correct in E; exfalso; auto|]
  | H : zq ?y <> 0%Qc |- context [(?y =? 0)%Z] =>
      let E := fresh in destruct (y =? 0)%Z eqn:E; [apply Z.eqb_eq in E; subst; exfalso; apply H; exact zq_0|]
  end.
Ltac lib_R :=
  cbv delta [fmpq_set fmpq_neg fmpq_add fmpq_sub fmpq_mul fmpq_div fmpq_add_fmpz fmpq_sub_fmpz
    fmpq_mul_fmpz fmpq_div_fmpz fmpq_add_si fmpq_sub_si fmpq_mul_si mp_rat_copy mp_rat_neg mp_rat_add mp_rat_sub mp_rat_mul mp_rat_div
    mp_rat_add_int mp_rat_sub_int mp_rat_mul_int mp_rat_div_int] beta.
Ltac lib_I :=
  cbv delta [fmpz_set fmpz_neg fmpz_add fmpz_sub fmpz_mul fmpz_add_si fmpz_sub_si fmpz_mul_si fmpz_addmul fmpz_gcd
    mp_int_copy mp_int_neg mp_int_add mp_int_sub mp_int_mul mp_int_add_value mp_int_sub_value mp_int_mul_value] beta.
Ltac comp_R :=
  let st1 := fresh "st1" in let c := fresh "c" in let Ha := fresh "Ha" in let Hc := fresh "Hc" in
  intros st1 c Ha Hc; transport Ha; lib_R; repeat rd; try nonzero; apply wrq_ok; exact Hc.
Ltac comp_I :=
  let st1 := fresh "st1" in let c := fresh "c" in let Ha := fresh "Ha" in let Hc := fresh "Hc" in
  intros st1 c Ha Hc; transport Ha; lib_I; repeat rd; apply wrz_ok; exact Hc.
Ltac store_R := let Hc := fresh "Hc" in intros Hc; lib_R; repeat rd; try nonzero; apply wrq_ok; exact Hc.
Ltac store_I := let Hc := fresh "Hc" in intros Hc; lib_I; repeat rd; apply wrz_ok; exact Hc.

Ltac form_R :=
  first [ refine (form_copy_R (fun c => _) _ _ _ _); solve [comp_R]
        | refine (form_move_R _ _ _ _ _ _ _); [eassumption | form_R]
        | refine (form_assign_R _ _ _ _ _ _ _); [solve [store_R] | eassumption]
        | refine (with_temp_I _ _ _ _ _);
          let t := fresh "t" in let st1 := fresh "st1" in let Ha := fresh "Ha" in let Ht := fresh "Ht" in
          intros t st1 Ha Ht _; transport Ha; weaken_R Ha
        | refine (with_temp_R _ _ _ _ _);
          let t := fresh "t" in let st1 := fresh "st1" in let Ha := fresh "Ha" in let Ht := fresh "Ht" in
          intros t st1 Ha Ht; transport Ha; weaken_R Ha ]
with weaken_R Ha :=
  lazymatch goal with
  | |- exists c st', ?K = Ok (c, st') /\ rat_outcome ?f ?st ?a ?v c st' =>
     lazymatch type of Ha with agree _ ?st1 =>
     let H := fresh in
     cut (exists c st', K = Ok (c, st') /\ rat_outcome f st1 a v c st');
     [ intros (? & ? & ? & H); eexists _, _; split; [eassumption|]; exact (outcome_weaken_R _ _ _ _ _ _ _ Ha H) | form_R ] end
  end.
Ltac form_I :=
  first [ refine (form_copy_I (fun c => _) _ _ _ _); solve [comp_I]
        | refine (form_move_I _ _ _ _ _); form_I
        | refine (form_assign_I _ _ _ _ _ _ _); [solve [store_I] | eassumption]
        | refine (with_temp_I _ _ _ _ _);
          let t := fresh "t" in let st1 := fresh "st1" in let Ha := fresh "Ha" in let Ht := fresh "Ht" in
          intros t st1 Ha Ht _; transport Ha; weaken_I Ha ]
with weaken_I Ha :=
  lazymatch goal with
  | |- exists c st', ?K = Ok (c, st') /\ int_outcome ?f ?st ?a ?v c st' =>
     lazymatch type of Ha with agree _ ?st1 =>
     let H := fresh in
     cut (exists c st', K = Ok (c, st') /\ int_outcome f st1 a v c st');
     [ intros (? & ? & ? & H); eexists _, _; split; [eassumption|]; exact (outcome_weaken_I _ _ _ _ _ _ _ Ha H) | form_I ] end
  end.

(** ** C45: theorems *)

(** The arithmetic operators of Rational. *)
Theorem C45_rational_operators L f op a b st x y :
  rat_at st a x -> rat_arg st b y -> apart a b -> (op = Div -> y <> 0%Qc) ->
  exists c st', call_R L f op a b st = Ok (c, st') /\ rat_outcome f st a (q_op op x y) c st'.
Proof.
  intros Hx Hy _ Hdiv.
  destruct b as [v|i|o]; cbn [rat_arg] in Hy; [subst y|destruct Hy as (z & Hz & ->)|];
    (destruct L as [[|]|], op, f; cbn [call_R q_op]; try specialize (Hdiv eq_refl); form_R).
Qed.

(** Division by zero: FLINT aborts, imath's error is thrown as an exception. *)
Theorem C45_division_by_zero L f a b st x :
  rat_at st a x -> rat_arg st b 0%Qc -> apart a b ->
  call_R L f Div a b st = match L with Flint _ => UB | Imath => Exn end.
Proof.
  intros Hx Hy _.
  assert (Hz : forall z, 0%Qc = zq z -> z = 0%Z) by (intros z E; apply zq_inj; rewrite zq_0; auto).
  assert (HI : forall st1 i, agree st st1 -> int_at st1 i 0 -> forall c,
    fmpq_div_fmpz c a i st1 = UB /\ mp_rat_div_int a i c st1 = Exn).
  { intros st1 i Ha Hi c. transport Ha. unfold fmpq_div_fmpz, mp_rat_div_int. split; repeat rd; reflexivity. }
  assert (HR : forall st1 o, agree st st1 -> rat_at st1 o 0%Qc -> forall c,
    fmpq_div c a o st1 = UB /\ mp_rat_div a o c st1 = Exn).
  { intros st1 i Ha Hi c. transport Ha. unfold fmpq_div, mp_rat_div. split; repeat rd; reflexivity. }
  assert (Hb : forall {A B} (m : M A) (g : A -> M B) st1, (m st1 = UB -> (m ≫= g) st1 = UB) /\ (m st1 = Exn -> (m ≫= g) st1 = Exn)).
  { intros A B m g st1. unfold mbind, M_bind. split; intros ->; reflexivity. }
  destruct b as [v|i|o]; cbn [rat_arg] in Hy.
  - pose proof (Hz _ Hy) as ->. destruct (mk_I_ok st 0) as (t & st1 & E & Ht & _ & Ha).
    pose proof (fresh_cells st1) as (_ & _ & Ha1 & _).
    assert (Ha2 : agree st ((st1 ++ [0%Z]) ++ [1%Z])) by (eapply unchanged_trans; eassumption).
    destruct (HI st1 t Ha Ht a) as [EF EM].
    destruct (HI _ t Ha2 (int_at_agree _ _ _ _ Ha1 Ht) (RObj (length st1) (S (length st1)))) as [EF2 EM2].
    destruct L as [old|], f; cbn [call_R];
      unfold fR_div_cs, fR_div_ms, fR_div_es, fR_div_cz, fR_div_ez, mR_div_cs, mR_div_ms, mR_div_es, mR_div_cz, mR_div_ez;
      change fI_of with mk_I; change mI_of with mk_I; change fR_new with fresh_R; change mR_new with fresh_R;
      repeat first
        [ rewrite (bindM_ok _ _ _ _ _ E) | rewrite (bindM_ok _ _ _ _ _ (fresh_R_ok st1))
        | apply Hb; assumption | apply Hb ].
  - destruct Hy as (z & Hi & Ez). pose proof (Hz _ Ez) as ->.
    pose proof (fresh_cells st) as (_ & _ & Ha1 & _).
    destruct (HI st i (agree_refl st) Hi a) as [EF EM].
    destruct (HI _ i Ha1 (int_at_agree _ _ _ _ Ha1 Hi) (RObj (length st) (S (length st)))) as [EF2 EM2].
    destruct L as [old|], f; cbn [call_R];
      unfold fR_div_mz, fR_div_cz, fR_div_ez, mR_div_mz, mR_div_cz, mR_div_ez;
      change fR_new with fresh_R; change mR_new with fresh_R;
      repeat first [ rewrite (bindM_ok _ _ _ _ _ (fresh_R_ok st)) | apply Hb; assumption | apply Hb ].
  - pose proof (fresh_cells st) as (_ & _ & Ha1 & _).
    destruct (HR st o (agree_refl st) Hy a) as [EF EM].
    destruct (HR _ o Ha1 (rat_at_agree _ _ _ _ Ha1 Hy) (RObj (length st) (S (length st)))) as [EF2 EM2].
    destruct L as [old|], f; cbn [call_R];
      unfold fR_div_mc, fR_div_cc, fR_div_ec, mR_div_mc, mR_div_cc, mR_div_ec;
      change fR_new with fresh_R; change mR_new with fresh_R;
      repeat first [ rewrite (bindM_ok _ _ _ _ _ (fresh_R_ok st)) | apply Hb; assumption | apply Hb ].
Qed.

(** The arithmetic operators of Integer: all but division exist for fixed_int and Integer. *)
Theorem C45_integer_operators L f op a b st x y :
  int_at st a x -> int_arg st b y -> op <> Div ->
  exists m c st', call_I L f op a b = Some m /\ m st = Ok (c, st') /\ int_outcome f st a (z_op op x y) c st'.
Proof.
  intros Hx Hy Hop.
  assert (Hm : forall m, call_I L f op a b = Some m ->
    (exists c st', m st = Ok (c, st') /\ int_outcome f st a (z_op op x y) c st') ->
    exists m c st', call_I L f op a b = Some m /\ m st = Ok (c, st') /\ int_outcome f st a (z_op op x y) c st').
  { intros m Em (c & st' & H). exists m, c, st'. auto. }
  destruct b as [v|i|o]; cbn [int_arg] in Hy; [subst y| |destruct Hy];
    (destruct L as [[|]|], op, f; [..|exfalso; now apply Hop]; try (exfalso; now apply Hop);
     cbn [call_I z_op] in Hm |- *; (eapply Hm; [reflexivity|]); form_I).
Qed.

(** Relational operators. *)
Lemma qsgn_spec (q : Qc) :
  ((q < 0)%Qc /\ qsgn q = (-1)%Z) \/ (q = 0%Qc /\ qsgn q = 0%Z) \/ ((0 < q)%Qc /\ qsgn q = 1%Z).
Proof.
  unfold qsgn. destruct q as [[n d] Hq]. cbn [this Qnum]. destruct n as [|p|p].
  - right; left. split; [|reflexivity]. apply Qc_is_canon. cbn. reflexivity.
  - right; right. split; [|reflexivity]. change ((0 < Z.pos p # d)%Q). unfold Qlt. cbn [Qnum Qden]. nia.
  - left. split; [|reflexivity]. change ((Z.neg p # d < 0)%Q). unfold Qlt. cbn [Qnum Qden]. nia.
Qed.
Lemma qsgn_sub (x y : Qc) :
  ((x < y)%Qc /\ qsgn (x - y)%Qc = (-1)%Z) \/ (x = y /\ qsgn (x - y)%Qc = 0%Z) \/ ((y < x)%Qc /\ qsgn (x - y)%Qc = 1%Z).
Proof.
  destruct (qsgn_spec (x - y)%Qc) as [[H E]|[[H E]|[H E]]]; rewrite E.
  - left. split; [qclra|reflexivity].
  - right; left. split; [|reflexivity]. replace x with ((x - y) + y)%Qc by ring. rewrite H. ring.
  - right; right. split; [qclra|reflexivity].
Qed.
Lemma zsgn_sub (x y : Z) :
  ((x < y)%Z /\ Z.sgn (x - y)%Z = (-1)%Z) \/ (x = y /\ Z.sgn (x - y)%Z = 0%Z) \/ ((y < x)%Z /\ Z.sgn (x - y)%Z = 1%Z).
Proof. lia. Qed.

(** What a relational operator makes of the result of compare. *)
Definition rel_of (r : rop) (c : Z) : bool :=
  match r with
  | OLt => (c <? 0)%Z | OLe => (c <=? 0)%Z | OGt => (0 <? c)%Z | OGe => (0 <=? c)%Z
  | OEq => (c =? 0)%Z | ONe => negb (c =? 0)%Z
  end.
Lemma rel_of_q r x y : rel_of r (qsgn (x - y)%Qc) = true <-> q_rel r x y.
Proof.
  destruct (qsgn_sub x y) as [[H ->]|[[-> ->]|[H ->]]]; destruct r; cbn;
    (split; intros H'; try reflexivity; try discriminate; try (exfalso; qclra); try qclra; try congruence).
  all: try (intros ->; qclra). all: try (subst; exfalso; qclra).
Qed.
Lemma rel_of_z r x y : rel_of r (Z.sgn (x - y)%Z) = true <-> z_rel r x y.
Proof.
  destruct (zsgn_sub x y) as [[H ->]|[[-> ->]|[H ->]]]; destruct r; cbn;
    (split; intros H'; try reflexivity; try discriminate; try lia).
Qed.
Lemma qc_eqb x y : Qc_eq_bool x y = (qsgn (x - y)%Qc =? 0)%Z.
Proof.
  destruct (qsgn_sub x y) as [[H ->]|[[-> ->]|[H ->]]].
  - destruct (Qc_eq_bool x y) eqn:E; [|reflexivity]. apply Qc_eq_bool_correct in E. subst. exfalso; qclra.
  - unfold Qc_eq_bool. destruct (Qc_eq_dec y y); [reflexivity|congruence].
  - destruct (Qc_eq_bool x y) eqn:E; [|reflexivity]. apply Qc_eq_bool_correct in E. subst. exfalso; qclra.
Qed.
Lemma z_eqb x y : (x =? y)%Z = (Z.sgn (x - y) =? 0)%Z.
Proof. lia. Qed.

(** *** Construction from numerator and denominator *)
Lemma zq_frac (n : Z) (d : positive) x : zq n = x -> (zq n / zq 1)%Qc = x.
Proof. intros <-. rewrite zq_1. field. discriminate. Qed.

Lemma swap_fresh st st1 c n (v w : Z) : agree st st1 -> new_cell st c -> new_cell st n -> c <> n ->
  int_at st1 c v -> int_at st1 n w ->
  exists st2, (_ ← swapz c n; mret c) st1 = Ok (c, st2) /\ agree st st2 /\ int_at st2 c w /\
    unchanged [c; n] st1 st2.
Proof.
  intros Ha Hc Hn Hne Hv Hw. rewrite (bindM_ok _ _ _ _ _ (swapz_ok _ _ _ _ _ Hv Hw)).
  eexists. split; [reflexivity|]. split; [now apply insert_agree; [apply insert_agree|]|]. split.
  - unfold int_at. rewrite list_lookup_insert_ne by auto. apply list_lookup_insert. exact (lookup_lt_Some _ _ _ Hv).
  - intros i z Hi Hz. rewrite !list_lookup_insert_ne; [exact Hz| |]; intros E; apply Hi; rewrite <- E, !elem_of_cons; auto.
Qed.

(** Everything up to canonicalize. *)
Lemma of_ints_cells (K : rational -> M rational) st num den n d :
  int_at st num n -> int_at st den d ->
  exists c st1, (n ← (c ← newz 0; _ ← (x ← rdz num; wrz c x); mret c);
                 d ← (c ← newz 0; _ ← (x ← rdz den; wrz c x); mret c);
                 c ← fresh_R;
                 _ ← (_ ← swapz (ro_num c) n; mret (ro_num c));
                 _ ← (_ ← swapz (ro_den c) d; mret (ro_den c)); K c) st = K c st1 /\
    agree st st1 /\ cells_ok st1 c /\ (new_cell st (ro_num c) /\ new_cell st (ro_den c)) /\
    int_at st1 (ro_num c) n /\ int_at st1 (ro_den c) d.
Proof.
  intros Hn Hd.
  destruct (form_copy_I (fun c => x ← rdz num; wrz c x) st 0 n) as (p & st1 & E1 & Hp & Np & A1).
  { intros s c Ha Hc. transport Ha. rd. now apply wrz_ok. }
  rewrite (bindM_ok _ _ _ _ _ E1).
  pose proof (int_at_agree _ _ _ _ A1 Hd) as Hd1.
  destruct (form_copy_I (fun c => x ← rdz den; wrz c x) st1 0 d) as (q & st2 & E2 & Hq & Nq & A2).
  { intros s c Ha Hc. transport Ha. rd. now apply wrz_ok. }
  rewrite (bindM_ok _ _ _ _ _ E2), (bindM_ok _ _ _ _ _ (fresh_R_ok st2)).
  pose proof (fresh_cells st2) as (Hc & Hc0 & A3 & Nn & Nd).
  set (c := RObj (length st2) (S (length st2))) in *. set (st3 := (st2 ++ [0%Z]) ++ [1%Z]) in *.
  pose proof (agree_length _ _ A1) as L1. pose proof (agree_length _ _ A2) as L2.
  pose proof (lookup_lt_Some _ _ _ Hp) as Lp. pose proof (lookup_lt_Some _ _ _ Hq) as Lq.
  assert (A12 : agree st st2) by (eapply unchanged_trans; eassumption).
  assert (A13 : agree st st3) by (eapply unchanged_trans; eassumption).
  destruct Hc0 as (Hne & Hc1 & Hc2). unfold new_cell in *.
  pose proof (int_at_agree _ _ _ _ A2 Hp) as Hp2.
  pose proof (int_at_agree _ _ _ _ A3 Hp2) as Hp3. pose proof (int_at_agree _ _ _ _ A3 Hq) as Hq3.
  destruct (fun H1 H2 H3 => swap_fresh st st3 (ro_num c) p _ _ A13 H1 H2 H3 Hc1 Hp3) as (st4 & E4 & A4 & H4 & U4).
  { unfold new_cell. lia. } { exact Np. } { lia. }
  rewrite (bindM_ok _ _ _ _ _ E4).
  assert (Hc24 : int_at st4 (ro_den c) (Z.pos (Qden (this 0%Qc)))).
  { apply U4; [|exact Hc2]. rewrite !elem_of_cons, elem_of_nil. intros [E|[E|[]]]; [congruence|lia]. }
  assert (Hq4 : int_at st4 q d).
  { apply U4; [|exact Hq3]. rewrite !elem_of_cons, elem_of_nil. intros [E|[E|[]]]; lia. }
  destruct (fun H1 H2 H3 => swap_fresh st st4 (ro_den c) q _ _ A4 H1 H2 H3 Hc24 Hq4) as (st5 & E5 & A5 & H5 & U5).
  { unfold new_cell. lia. } { unfold new_cell. lia. } { lia. }
  rewrite (bindM_ok _ _ _ _ _ E5).
  assert (H45 : int_at st5 (ro_num c) n).
  { apply U5; [|exact H4]. rewrite !elem_of_cons, elem_of_nil. intros [E|[E|[]]]; [congruence|lia]. }
  exists c, st5. split; [reflexivity|]. split; [exact A5|].
  split; [split; [exact Hne|split; eapply lookup_lt_Some; eassumption]|].
  split; [unfold new_cell; lia|]. auto.
Qed.

(** Rational(num, den) is the fraction in lowest terms. *)
Theorem C45_from_fraction L num den st n d : int_at st num n -> int_at st den d -> d <> 0%Z ->
  exists c st', of_ints_R L num den st = Ok (c, st') /\ rat_at st' c (zq n / zq d)%Qc /\
    (new_cell st (ro_num c) /\ new_cell st (ro_den c)) /\ unchanged [] st st'.
Proof.
  intros Hn Hd Hnz.
  assert (HK : exists c st', of_ints_R L num den st = (_ ← wrq c (zq n / zq d)%Qc; mret c) st' /\ agree st st' /\ cells_ok st' c /\
    (new_cell st (ro_num c) /\ new_cell st (ro_den c))).
  { destruct L as [old|]; cbn [of_ints_R].
    - destruct (of_ints_cells (fun c => _ ← fR_canonicalize c; mret c) st num den n d Hn Hd) as (c & st1 & E & Ha & Hc & Hnew & H1 & H2).
      exists c, st1. split; [|auto]. etransitivity; [exact E|]. unfold fR_canonicalize, fmpq_canonicalise, mbind, M_bind.
      rewrite (rdz_ok _ _ _ H1), (rdz_ok _ _ _ H2). destruct (Z.eqb_spec d 0); [congruence|reflexivity].
    - destruct (of_ints_cells (fun c => _ ← mR_canonicalize c; mret c) st num den n d Hn Hd) as (c & st1 & E & Ha & Hc & Hnew & H1 & H2).
      exists c, st1. split; [|auto]. etransitivity; [exact E|]. unfold mR_canonicalize, mp_rat_reduce, mbind, M_bind.
      rewrite (rdz_ok _ _ _ H1), (rdz_ok _ _ _ H2). destruct (Z.eqb_spec d 0); [congruence|reflexivity]. }
  destruct HK as (c & st1 & E & Ha & Hc & Hn1 & Hn2). rewrite E, (bindM_ok _ _ _ _ _ (wrq_ok _ _ _ Hc)).
  eexists _, _. split; [reflexivity|]. split; [now apply setq_at|]. split; [auto|]. now apply setq_agree.
Qed.
Theorem C45_from_fraction_zero L num den st n : int_at st num n -> int_at st den 0 ->
  of_ints_R L num den st = match L with Flint _ => UB | Imath => Exn end.
Proof.
  intros Hn Hd. destruct L as [old|]; cbn [of_ints_R].
  - destruct (of_ints_cells (fun c => _ ← fR_canonicalize c; mret c) st num den n 0 Hn Hd) as (c & st1 & E & Ha & Hc & Hnew & H1 & H2).
    etransitivity; [exact E|]. unfold fR_canonicalize, fmpq_canonicalise, mbind, M_bind.
    rewrite (rdz_ok _ _ _ H1), (rdz_ok _ _ _ H2). reflexivity.
  - destruct (of_ints_cells (fun c => _ ← mR_canonicalize c; mret c) st num den n 0 Hn Hd) as (c & st1 & E & Ha & Hc & Hnew & H1 & H2).
    etransitivity; [exact E|]. unfold mR_canonicalize, mp_rat_reduce, mbind, M_bind.
    rewrite (rdz_ok _ _ _ H1), (rdz_ok _ _ _ H2). reflexivity.
Qed.

(** *** Relational operators *)
Definition cmp_R (L : library) (a : rational) (b : arg) : M Z :=
  match L, b with
  | Flint old, Fixed v => fR_compare_s old a v
  | Flint old, AnInt i => fR_compare_z old a i
  | Flint old, ARat o => fR_compare_c a o
  | Imath, Fixed v => mR_compare_s a v
  | Imath, AnInt i => mR_compare_z a i
  | Imath, ARat o => mR_compare_c a o
  end.
Definition eq_R (L : library) (a : rational) (b : arg) : M bool :=
  match L, b with
  | Flint old, Fixed v => fR_eq_s old a v
  | Flint old, AnInt i => fR_eq_z old a i
  | Flint old, ARat o => fR_eq_c a o
  | Imath, _ => c ← cmp_R L a b; mret (c =? 0)%Z
  end.
Definition pure {A} (m : M A) st (v : A) : Prop := exists st', m st = Ok (v, st') /\ unchanged [] st st'.
Lemma pure_bind {A B} (m : M A) (g : A -> M B) st v w : pure m st v ->
  (forall st1, agree st st1 -> pure (g v) st1 w) -> pure (m ≫= g) st w.
Proof.
  intros (st1 & E & U) H. destruct (H st1 U) as (st2 & E2 & U2). exists st2.
  rewrite (bindM_ok _ _ _ _ _ E). split; [exact E2|]. eapply unchanged_trans; eassumption.
Qed.
Lemma pure_ret {A} (v : A) st : pure (mret v) st v.
Proof. exists st. split; [reflexivity|apply agree_refl]. Qed.
Lemma pure_rdq st a x : rat_at st a x -> pure (rdq a) st x.
Proof. intros H. exists st. split; [now apply rdq_ok|apply agree_refl]. Qed.
Lemma pure_rdz st a x : int_at st a x -> pure (rdz a) st x.
Proof. intros H. exists st. split; [now apply rdz_ok|apply agree_refl]. Qed.
Ltac pure_steps :=
  repeat first [ eapply pure_ret
               | eapply pure_bind; [first [apply pure_rdq; eassumption | apply pure_rdz; eassumption]|];
                 let st1 := fresh "st1" in let Ha := fresh "Ha" in intros st1 Ha; transport Ha ].
(** Through an Integer with value 1 and a new Rational. *)
Lemma through_fraction {A} L (g : rational -> M A) st i z v : int_at st i z ->
  (forall t st1, agree st st1 -> rat_at st1 t (zq z) -> pure (g t) st1 v) ->
  pure (one ← mk_I 1; t ← of_ints_R L i one; g t) st v.
Proof.
  intros Hi Hg. destruct (mk_I_ok st 1) as (t & st1 & E & Ht & _ & A1).
  destruct (C45_from_fraction L i t st1 z 1 (int_at_agree _ _ _ _ A1 Hi) Ht) as (c & st2 & E2 & Hc & _ & A2); [lia|].
  rewrite (zq_frac z 1 (zq z) eq_refl) in Hc.
  assert (A12 : agree st st2) by (eapply unchanged_trans; eassumption).
  destruct (Hg c st2 A12 Hc) as (st3 & E3 & A3). exists st3.
  rewrite (bindM_ok _ _ _ _ _ E), (bindM_ok _ _ _ _ _ E2). split; [exact E3|]. eapply unchanged_trans; eassumption.
Qed.
Lemma through_rational {A} (g : rational -> M A) st z v :
  (forall t st1, agree st st1 -> rat_at st1 t (zq z) -> pure (g t) st1 v) -> pure (t ← mk_R z; g t) st v.
Proof.
  intros Hg. destruct (mk_R_ok st z) as (t & st1 & E & Ht & _ & A1).
  destruct (Hg t st1 A1 Ht) as (st2 & E2 & A2). exists st2.
  rewrite (bindM_ok _ _ _ _ _ E). split; [exact E2|]. eapply unchanged_trans; eassumption.
Qed.
Lemma two_rationals {A} (h : Qc -> Qc -> A) st a b x y : rat_at st a x -> rat_at st b y ->
  pure (x ← rdq a; y ← rdq b; mret (h x y)) st (h x y).
Proof. intros. pure_steps. Qed.
Lemma rational_integer {A} (h : Qc -> Z -> A) st a b x y : rat_at st a x -> int_at st b y ->
  pure (x ← rdq a; y ← rdz b; mret (h x y)) st (h x y).
Proof. intros. pure_steps. Qed.
Lemma one_rational {A} (h : Qc -> A) st a x : rat_at st a x -> pure (x ← rdq a; mret (h x)) st (h x).
Proof. intros. pure_steps. Qed.

Lemma cmp_R_ok L a b st x y : rat_at st a x -> rat_arg st b y -> pure (cmp_R L a b) st (qsgn (x - y)%Qc).
Proof.
  intros Hx Hy. destruct b as [v|i|o]; cbn [rat_arg] in Hy; [subst y|destruct Hy as (z & Hz & ->)|];
    (destruct L as [[|]|]; cbn [cmp_R]).
  - refine (through_rational _ _ _ _ _). intros t st1 Ha Ht. transport Ha.
    exact (two_rationals (fun x y => qsgn (x - y)%Qc) st1 a t _ _ H Ht).
  - exact (one_rational (fun x => qsgn (x - zq v)%Qc) st a _ Hx).
  - exact (one_rational (fun x => qsgn (x - zq v)%Qc) st a _ Hx).
  - refine (through_fraction (Flint true) _ _ _ _ _ Hz _). intros t st1 Ha Ht. transport Ha.
    exact (two_rationals (fun x y => qsgn (x - y)%Qc) st1 a t _ _ H Ht).
  - exact (rational_integer (fun x y => qsgn (x - zq y)%Qc) st a i _ _ Hx Hz).
  - refine (through_fraction Imath _ _ _ _ _ Hz _). intros t st1 Ha Ht. transport Ha.
    exact (two_rationals (fun x y => qsgn (x - y)%Qc) st1 a t _ _ H Ht).
  - exact (two_rationals (fun x y => qsgn (x - y)%Qc) st a o _ _ Hx Hy).
  - exact (two_rationals (fun x y => qsgn (x - y)%Qc) st a o _ _ Hx Hy).
  - exact (two_rationals (fun x y => qsgn (x - y)%Qc) st a o _ _ Hx Hy).
Qed.
Lemma eq_R_ok L a b st x y : rat_at st a x -> rat_arg st b y -> pure (eq_R L a b) st (Qc_eq_bool x y).
Proof.
  intros Hx Hy. destruct L as [old|].
  - destruct b as [v|i|o]; cbn [rat_arg] in Hy; [subst y|destruct Hy as (z & Hz & ->)|]; (destruct old; cbn [eq_R]).
    + refine (through_rational _ _ _ _ _). intros t st1 Ha Ht. transport Ha.
      exact (two_rationals (fun x y => Qc_eq_bool x y) st1 a t _ _ H Ht).
    + exact (one_rational (fun x => Qc_eq_bool x (zq v)) st a _ Hx).
    + refine (through_fraction (Flint true) _ _ _ _ _ Hz _). intros t st1 Ha Ht. transport Ha.
      exact (two_rationals (fun x y => Qc_eq_bool x y) st1 a t _ _ H Ht).
    + exact (rational_integer (fun x y => Qc_eq_bool x (zq y)) st a i _ _ Hx Hz).
    + exact (two_rationals (fun x y => Qc_eq_bool x y) st a o _ _ Hx Hy).
    + exact (two_rationals (fun x y => Qc_eq_bool x y) st a o _ _ Hx Hy).
  - rewrite qc_eqb. cbn [eq_R]. destruct b; (eapply pure_bind; [exact (cmp_R_ok Imath a _ st x y Hx Hy)|]; intros; apply pure_ret).
Qed.

(** <, <=, >, >=, == and != of a Rational and a fixed_int, an Integer or a Rational. *)
Theorem C45_rational_relations L r a b st x y : rat_at st a x -> rat_arg st b y ->
  exists t st', rel_R L r a b st = Ok (t, st') /\ unchanged [] st st' /\ (t = true <-> q_rel r x y).
Proof.
  intros Hx Hy.
  assert (H : pure (rel_R L r a b) st (rel_of r (qsgn (x - y)%Qc))).
  { assert (Hb : forall h : Z -> bool, pure (c ← cmp_R L a b; mret (h c)) st (h (qsgn (x - y)%Qc))).
    { intros h. eapply pure_bind; [exact (cmp_R_ok L a b st x y Hx Hy)|]. intros. apply pure_ret. }
    assert (He : pure (eq_R L a b) st (qsgn (x - y)%Qc =? 0)%Z) by (rewrite <- qc_eqb; now apply eq_R_ok).
    assert (Hn : pure (e ← eq_R L a b; mret (negb e)) st (negb (qsgn (x - y)%Qc =? 0)%Z)).
    { eapply pure_bind; [exact He|]. intros. apply pure_ret. }
    destruct r; cbn [rel_of].
    - exact (Hb (fun c => (c <? 0)%Z)).
    - exact (Hb (fun c => (c <=? 0)%Z)).
    - exact (Hb (fun c => (0 <? c)%Z)).
    - exact (Hb (fun c => (0 <=? c)%Z)).
    - destruct L, b; exact He.
    - destruct L; [destruct b; exact Hn|]. exact (Hb (fun c => negb (c =? 0)%Z)). }
  destruct H as (st' & E & U). exists (rel_of r (qsgn (x - y)%Qc)), st'. split; [exact E|]. split; [exact U|apply rel_of_q].
Qed.
(** The same for Integer, with the exception of the ordering of two Integers with FLINT (C38). *)
Theorem C45_integer_relations L r a b st x y : int_at st a x -> int_arg st b y ->
  (forall old i, L = Flint old -> b = AnInt i -> r ∈ [OEq; ONe]) ->
  exists m t st', rel_I L r a b = Some m /\ m st = Ok (t, st') /\ unchanged [] st st' /\ (t = true <-> z_rel r x y).
Proof.
  intros Hx Hy HL.
  assert (Hm : forall m, rel_I L r a b = Some m -> pure m st (rel_of r (Z.sgn (x - y))) ->
    exists m t st', rel_I L r a b = Some m /\ m st = Ok (t, st') /\ unchanged [] st st' /\ (t = true <-> z_rel r x y)).
  { intros m Em (st' & E & U). exists m, (rel_of r (Z.sgn (x - y))), st'. split; [exact Em|]. split; [exact E|]. split; [exact U|apply rel_of_z]. }
  assert (H1 : forall {A} (h : Z -> A), pure (x ← rdz a; mret (h x)) st (h x)) by (intros; pure_steps).
  destruct b as [v|i|o]; cbn [int_arg] in Hy; [subst y| |destruct Hy].
  - assert (Hc : forall h : Z -> bool, pure (c ← (x ← rdz a; mret (Z.sgn (x - v))); mret (h c)) st (h (Z.sgn (x - v)))).
    { intros h. eapply pure_bind; [apply (H1 _ (fun x => Z.sgn (x - v)))|]. intros. apply pure_ret. }
    destruct L as [old|]; (eapply Hm; [reflexivity|]); destruct r; cbn [rel_of]; try exact (Hc (fun c => (c <? 0)%Z));
      try exact (Hc (fun c => (c <=? 0)%Z)); try exact (Hc (fun c => (0 <? c)%Z)); try exact (Hc (fun c => (0 <=? c)%Z));
      try exact (Hc (fun c => (c =? 0)%Z)); try exact (Hc (fun c => negb (c =? 0)%Z)).
    + rewrite <- z_eqb. exact (H1 _ (fun x => (x =? v)%Z)).
    + rewrite <- z_eqb. eapply pure_bind; [exact (H1 _ (fun x => (x =? v)%Z))|]. intros. apply pure_ret.
  - assert (H2 : forall {A} (h : Z -> Z -> A), pure (x ← rdz a; y ← rdz i; mret (h x y)) st (h x y)) by (intros; pure_steps).
    destruct L as [old|].
    + specialize (HL old i eq_refl eq_refl). rewrite !elem_of_cons, elem_of_nil in HL. destruct HL as [->|[->|[]]];
        (eapply Hm; [reflexivity|]); cbn [rel_of]; rewrite <- z_eqb.
      * exact (H2 _ (fun x y => (x =? y)%Z)).
      * eapply pure_bind; [exact (H2 _ (fun x y => (x =? y)%Z))|]. intros. apply pure_ret.
    + assert (Hc : forall h : Z -> bool, pure (c ← (x ← rdz a; y ← rdz i; mret (Z.sgn (x - y))); mret (h c)) st (h (Z.sgn (x - y)))).
      { intros h. eapply pure_bind; [apply (H2 _ (fun x y => Z.sgn (x - y)))|]. intros. apply pure_ret. }
      eapply Hm; [reflexivity|]. destruct r; cbn [rel_of]; try exact (Hc (fun c => (c <? 0)%Z));
      try exact (Hc (fun c => (c <=? 0)%Z)); try exact (Hc (fun c => (0 <? c)%Z)); try exact (Hc (fun c => (0 <=? c)%Z));
      try exact (Hc (fun c => (c =? 0)%Z)); try exact (Hc (fun c => negb (c =? 0)%Z)).
Qed.

(** Constructors, copies, assignments, negation of Rational.  Moving from an
    object leaves an object with some value, and swaps in case of assignments. *)
Theorem C45_rational_members L st a x c y v : rat_at st a x -> rat_at st c y ->
  (exists o st', new_R L st = Ok (o, st') /\ rat_outcome Copy st a 0%Qc o st') /\
  (exists o st', of_R L v st = Ok (o, st') /\ rat_outcome Copy st a (zq v) o st') /\
  (exists o st', copy_R L a st = Ok (o, st') /\ rat_outcome Copy st a x o st') /\
  (exists o st', move_R L a st = Ok (o, st') /\ rat_outcome Move st a x o st') /\
  (exists o st', assign_R L c a st = Ok (o, st') /\ rat_outcome Assign st c x o st') /\
  (c = a \/ distinct c a -> exists st', move_assign_R L c a st = Ok (c, st') /\ rat_at st' c x /\ (exists w, rat_at st' a w) /\
     unchanged [ro_num c; ro_den c; ro_num a; ro_den a] st st') /\
  (exists o st', neg_R L a st = Ok (o, st') /\ rat_outcome Assign st a (- x)%Qc o st') /\
  (exists o st', opp_R L a st = Ok (o, st') /\ rat_outcome Copy st a (- x)%Qc o st').
Proof.
  intros Hx Hy.
  split.
  { pose proof (fresh_cells st) as (_ & H0 & A & Hn). eexists _, _.
    split; [destruct L; exact (fresh_R_ok st)|]. split; [exact H0|]. auto. }
  split; [destruct L; destruct (mk_R_ok st v) as (o & st' & E & H); exists o, st'; (split; [exact E|exact H])|].
  split; [destruct L; form_R|].
  split.
  { destruct (mv_R_ok st a x Hx) as (o & st' & E & Ho & Hn & U & H0). exists o, st'.
    split; [destruct L; exact E|]. split; [exact Ho|]. split; [exact Hn|]. split; [exact U|eauto]. }
  split; [destruct L; form_R|].
  split.
  { intros [->|Hd].
    - assert (Hs : swap_R a a st = Ok (tt, st)).
      { destruct Hx as (_ & H1 & H2). unfold swap_R.
        rewrite (bindM_ok _ _ _ _ _ (swapz_ok _ _ _ _ _ H1 H1)), list_insert_insert, (list_insert_id st) by exact H1.
        rewrite (swapz_ok _ _ _ _ _ H2 H2), list_insert_insert, (list_insert_id st) by exact H2. reflexivity. }
      exists st. split; [destruct L; exact (bindM_ok _ _ _ _ _ Hs)|]. split; [exact Hx|]. split; [eauto|]. apply agree_unchanged, agree_refl.
    - destruct (swap_R_ok st c a y x Hy Hx Hd) as (st' & E & H1 & H2 & U). exists st'.
      split; [destruct L; exact (bindM_ok _ _ _ _ _ E)|]. split; [exact H1|]. split; [eauto|exact U]. }
  split; [destruct L; form_R|].
  assert (Hcp : exists o st', (c ← fresh_R; _ ← (x ← rdq a; wrq c x); mret c) st = Ok (o, st') /\ rat_outcome Copy st a x o st').
  { refine (form_copy_R (fun c => _) _ _ _ _). comp_R. }
  destruct Hcp as (p & st1 & E1 & Hp & (N1 & N2) & U1). pose proof (agree_length _ _ U1) as L1.
  assert (Hng : exists o st', (_ ← (x ← rdq p; wrq p (- x)%Qc); mret p) st1 = Ok (o, st') /\ rat_outcome Assign st1 p (- x)%Qc o st').
  { refine (form_assign_R _ _ _ _ _ _ _); [store_R|exact Hp]. }
  destruct Hng as (q & st2 & E2 & Ho). pose proof (rat_outcome_assign_length _ _ _ _ _ Ho (ex_intro _ x Hp)) as L2.
  destruct Ho as (Hq & -> & U2).
  destruct (mv_R_ok st2 p _ Hq) as (o & st3 & E3 & Ho & (M1 & M2) & U3 & _).
  exists o, st3. split.
  - destruct L; (etransitivity; [exact (bindM_ok _ _ _ _ _ E1)|]); (etransitivity; [exact (bindM_ok _ _ _ _ _ E2)|]); exact E3.
  - split; [exact Ho|]. unfold new_cell in *. split; [lia|].
    intros i z _ Hz. pose proof (lookup_lt_Some _ _ _ Hz) as Hl.
    assert (Hi : i ∉ [ro_num p; ro_den p]) by (rewrite !elem_of_cons, elem_of_nil; intros [?|[?|[]]]; lia).
    apply U3; [exact Hi|]. apply U2; [exact Hi|]. apply U1; [intros Hj; inversion Hj|exact Hz].
Qed.

(** The same for Integer, with add_mul, gcd and as_int. *)
Theorem C45_integer_members L st a x b y c z v bits : int_at st a x -> int_at st b y -> int_at st c z -> (31 <= bits)%Z ->
  (exists o st', new_I L st = Ok (o, st') /\ int_outcome Copy st a 0 o st') /\
  (exists o st', of_I L v st = Ok (o, st') /\ int_outcome Copy st a v o st') /\
  (exists o st', copy_I L a st = Ok (o, st') /\ int_outcome Copy st a x o st') /\
  (exists o st', move_I L a st = Ok (o, st') /\ int_outcome Move st a x o st') /\
  (exists o st', assign_I L c a st = Ok (o, st') /\ int_outcome Assign st c x o st') /\
  (exists st', move_assign_I L c a st = Ok (c, st') /\ int_at st' c x /\ int_at st' a z /\ unchanged [c; a] st st' \/ c = a /\ move_assign_I L c a st = Ok (c, st)) /\
  (exists o st', neg_I L a st = Ok (o, st') /\ int_outcome Assign st a (- x) o st') /\
  (exists o st', opp_I L a st = Ok (o, st') /\ int_outcome Copy st a (- x) o st') /\
  (exists o st', add_mul_I L c a b st = Ok (o, st') /\ int_outcome Assign st c (z + x * y) o st') /\
  (exists o st', add_mul_mI L c a b st = Ok (o, st') /\ int_outcome Move st c (z + x * y) o st') /\
  (exists o st', gcd_I L a b st = Ok (o, st') /\ int_outcome Copy st a (Z.gcd x y) o st') /\
  as_int bits a st = Ok (if decide (- 2 ^ 31 <= x < 2 ^ 31)%Z then Some x else None, st).
Proof.
  intros Hx Hy Hz Hbits.
  split.
  { destruct (newz_cells st 0) as (E & H0 & A & Hn & _). eexists _, _. split; [destruct L; exact E|]. split; [exact H0|]. auto. }
  split; [destruct L; destruct (mk_I_ok st v) as (o & st' & E & H); exists o, st'; (split; [exact E|exact H])|].
  split; [destruct L; form_I|].
  split.
  { destruct (mv_I_ok st a x Hx) as (o & st' & E & Ho & Hn & U & H0). exists o, st'.
    split; [destruct L; exact E|]. split; [exact Ho|]. split; [exact Hn|]. split; [exact U|eauto]. }
  split; [destruct L; form_I|].
  split.
  { pose proof (swapz_ok st c a z x Hz Hx) as E. destruct (decide (c = a)) as [->|Hne].
    - exists st. right. split; [reflexivity|]. unfold int_at in *.
      rewrite list_insert_insert, list_insert_id in E by congruence. destruct L; exact (bindM_ok _ _ _ _ _ E).
    - eexists. left. split; [destruct L; exact (bindM_ok _ _ _ _ _ E)|].
      pose proof (lookup_lt_Some _ _ _ Hx). pose proof (lookup_lt_Some _ _ _ Hz).
      split; [|split].
      + unfold int_at. rewrite list_lookup_insert_ne by auto. now apply list_lookup_insert.
      + apply list_lookup_insert. now rewrite insert_length.
      + intros i w Hi Hw. rewrite !list_lookup_insert_ne; [exact Hw| |]; intros E'; apply Hi; rewrite <- E', !elem_of_cons; auto. }
  split; [destruct L; form_I|].
  split.
  { assert (Hcp : exists o st', (c ← newz 0; _ ← (x ← rdz a; wrz c x); mret c) st = Ok (o, st') /\ int_outcome Copy st a x o st').
    { refine (form_copy_I (fun c => _) _ _ _ _). comp_I. }
    destruct Hcp as (p & st1 & E1 & Hp & N1 & U1). pose proof (agree_length _ _ U1) as L1.
    assert (Hng : exists o st', (_ ← (x ← rdz p; wrz p (- x)%Z); mret p) st1 = Ok (o, st') /\ int_outcome Assign st1 p (- x)%Z o st').
    { refine (form_assign_I _ _ _ _ _ _ _); [store_I|exact Hp]. }
    destruct Hng as (q & st2 & E2 & Ho). pose proof (int_outcome_assign_length _ _ _ _ _ Ho) as L2.
    destruct Ho as (Hq & -> & U2).
    destruct (mv_I_ok st2 p _ Hq) as (o & st3 & E3 & Ho & M1 & U3 & _).
    exists o, st3. split.
    - destruct L; (etransitivity; [exact (bindM_ok _ _ _ _ _ E1)|]); (etransitivity; [exact (bindM_ok _ _ _ _ _ E2)|]); exact E3.
    - split; [exact Ho|]. unfold new_cell in *. split; [lia|].
      intros i w _ Hw. pose proof (lookup_lt_Some _ _ _ Hw) as Hl.
      assert (Hi : i ∉ [p]) by (rewrite !elem_of_cons, elem_of_nil; intros [?|[]]; lia).
      apply U3; [exact Hi|]. apply U2; [exact Hi|]. apply U1; [intros Hj; inversion Hj|exact Hw]. }
  assert (Ham : exists o st', add_mul_I L c a b st = Ok (o, st') /\ int_outcome Assign st c (z + x * y) o st').
  { destruct L; cbn [add_mul_I]; [form_I|].
    assert (Hp : exists o st', (c ← newz 0; _ ← (x ← rdz a; y ← rdz b; wrz c (x * y)%Z); mret c) st = Ok (o, st') /\ int_outcome Copy st a (x * y) o st').
    { refine (form_copy_I (fun c => _) _ _ _ _). comp_I. }
    destruct Hp as (p & st1 & E1 & Hp & N1 & U1).
    pose proof (int_at_agree _ _ _ _ U1 Hz) as Hz1.
    assert (Hng : exists o st', (_ ← (x ← rdz c; y ← rdz p; wrz c (x + y)%Z); mret c) st1 = Ok (o, st') /\ int_outcome Assign st1 c (z + x * y) o st').
    { refine (form_assign_I _ _ _ _ _ _ _); [store_I|exact Hz1]. }
    destruct Hng as (q & st2 & E2 & Ho). exists q, st2.
    split; [etransitivity; [exact (bindM_ok _ _ _ _ _ E1)|exact E2]|]. now apply (outcome_weaken_I _ _ st1). }
  split; [exact Ham|].
  split.
  { pose proof (form_move_I _ _ _ _ Ham) as (o & st' & E & Ho). exists o, st'. split; [|exact Ho].
    destruct L; cbn [add_mul_mI add_mul_I] in *; [exact E|].
    unfold mI_add_mul, mI_add_mul_m in *. rewrite <- E. unfold mbind, M_bind. destruct (mI_mul_cc a b st) as [[t s]| | |]; reflexivity. }
  split.
  { destruct L; cbn [gcd_I]; [form_I|].
    destruct (decide (x = 0 /\ y = 0)%Z) as [[-> ->]|Hnz].
    - destruct (newz_cells st 0) as (E & H0 & A & Hn & _). exists (length st), (st ++ [0%Z]). split.
      + unfold mI_gcd, mI_new. rewrite (bindM_ok _ _ _ _ _ E). unfold mp_int_gcd. transport A.
        unfold mbind, M_bind. now rewrite (rdz_ok (st ++ [0%Z]) a 0), (rdz_ok (st ++ [0%Z]) b 0) by assumption.
      + split; [exact H0|]. auto.
    - refine (form_copy_I (fun c => mp_int_gcd a b c) _ _ _ _). intros st1 o Ha Ho. transport Ha. unfold mp_int_gcd. repeat rd.
      destruct (x =? 0)%Z eqn:E1, (y =? 0)%Z eqn:E2; try (now apply wrz_ok).
      exfalso. apply Hnz. lia. }
  unfold as_int. rd. unfold mret, M_ret. f_equal. f_equal.
  assert (Hp : (2 ^ 31 <= 2 ^ bits)%Z) by (apply Z.pow_le_mono_r; lia).
  change (2 ^ 31)%Z with 2147483648%Z in *.
  case_decide as Hi.
  - replace ((- 2 ^ bits <=? x)%Z && (x <? 2 ^ bits)%Z) with true by lia.
    now replace ((-2147483648 <=? x)%Z && (x <=? 2147483647)%Z) with true by lia.
  - replace ((-2147483648 <=? x)%Z && (x <=? 2147483647)%Z) with false by lia. destruct (_ && _); reflexivity.
Qed.

(** The hypotheses are met: cells 0 and 1 hold 2/3, cell 2 the Integer 4, and 2/3 * 4 = 8/3 and 2/3 - 2/3 = 0. *)
Example C45_example : let st := [2; 3; 4]%Z in let a := RObj 0 1 in
  rat_at st a (Q2Qc (2 # 3)) /\ rat_arg st (AnInt 2) (zq 4) /\ apart a (AnInt 2) /\ apart a (ARat a) /\
  (forall st', call_R (Flint true) Copy Mul a (AnInt 2) st = Ok (RObj 3 4, st') -> st' = [2; 3; 4; 8; 3]%Z) /\
  call_R Imath Assign Sub a (ARat a) st = Ok (a, [0; 1; 4]%Z) /\
  call_R Imath Move Mul a (AnInt 2) st = Ok (RObj 3 4, [0; 1; 4; 8; 3]%Z) /\
  call_R (Flint false) Copy Mul a (AnInt 2) st = Ok (RObj 3 4, [2; 3; 4; 8; 3]%Z).
Proof.
  cbv zeta. split; [split; [discriminate|split; reflexivity]|].
  split; [exists 4%Z; split; reflexivity|].
  split; [cbn; rewrite !elem_of_cons, elem_of_nil; intros [?|[?|[]]]; discriminate|].
  split; [left; reflexivity|].
  split; [intros st' E; vm_compute in E; congruence|].
  split; [vm_compute; reflexivity|]. split; vm_compute; reflexivity.
Qed.
