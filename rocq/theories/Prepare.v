(** * Correctness of Solver::prepare *)

From stdpp Require Import list_numbers.
From Verif Require Import Num Sums Tableau TableauProofs Bland Solver SolverBase SolverStep Simplex SimplexLoop Hist Updates Core CoreSolve Propagate Spec.

Section cells.
  Fixpoint cget (r : list (nat * Qc)) (j : nat) : Qc :=
    match r with [] => 0%Qc | (k, c) :: r' => if k =? j then c else cget r' j end.

  Lemma cget_notin r j : j ∉ map fst r -> cget r j = 0%Qc.
  Proof.
    induction r as [|[k c] r IH]; cbn; auto. intros Hn. apply not_elem_of_cons in Hn as [Hne Hn].
    destruct (Nat.eqb_spec k j); [congruence|auto].
  Qed.
  Lemma cget_in r j c : NoDup (map fst r) -> (j, c) ∈ r -> cget r j = c.
  Proof.
    induction r as [|[k d] r IH]; cbn; intros N Hin; [inversion Hin|].
    apply NoDup_cons in N as [N1 N2]. apply elem_of_cons in Hin as [E|Hin].
    - injection E as -> ->. rewrite Nat.eqb_refl. auto.
    - destruct (Nat.eqb_spec k j) as [->|]; auto. exfalso. apply N1. apply elem_of_map_fst. eauto.
  Qed.

  Lemma tsets_spec (r : list (nat * Qc)) : forall t i, tab_wf t -> NoDup (map fst r) ->
    tab_wf (fold_left (fun t c => tset t i c.1 c.2) r t) /\
    forall k l, tget (fold_left (fun t c => tset t i c.1 c.2) r t) k l =
      if decide (k = i /\ l ∈ map fst r) then cget r l else tget t k l.
  Proof.
    induction r as [|[j c] r IH]; intros t i W N; cbn [fold_left map].
    - split; auto. intros k l. destruct (decide _) as [[_ Hx]|]; auto. inversion Hx.
    - apply NoDup_cons in N as [N1 N2]. destruct (tset_spec t i j c W) as [W1 G1].
      destruct (IH _ i W1 N2) as [W2 G2]. split; auto. intros k l. rewrite G2. cbn [fst snd cget] in *.
      destruct (decide (k = i /\ l ∈ map fst r)) as [[-> Hl]|Hno].
      + rewrite decide_True by (split; auto; apply elem_of_cons; auto). destruct (Nat.eqb_spec j l) as [->|]; auto. exfalso. auto.
      + rewrite G1. destruct (Nat.eqb_spec k i) as [->|Hk]; cbn.
        * destruct (Nat.eqb_spec l j) as [->|Hl].
          -- rewrite decide_True by (split; auto; apply elem_of_cons; auto). rewrite Nat.eqb_refl. auto.
          -- rewrite decide_False; auto. intros [_ Hx]. apply elem_of_cons in Hx as [|]; auto.
        * rewrite decide_False; auto. intros [? _]; auto.
  Qed.
End cells.

Section meaning.
  Context {V : Type} `{VL : ValueLaws V}.

  (** bound_val represents the relation exactly *)
  Definition srel (r : rel) : Prop :=
    forall q, (vemb (vbound q r : V)).2 = match r with Rlt => (-(1))%Qc | Rgt => 1%Qc | _ => 0%Qc end.

  Definition bs_rel (r : brel) (x v : V) : Prop :=
    match r with BLe => vle x v | BGe => vle v x | BEq => x = v end.

  Lemma bound_relv r (c : Qc) (x : V) : srel r -> bs_rel (bound_rel r) x (vbound c r) -> relv r x (vofq c).
  Proof.
    intros Hs. pose proof (Hs c) as E2. pose proof (vemb_bound1 c r : (vemb (vbound c r : V)).1 = c) as E1.
    destruct r; cbn in *; rewrite ?vle_emb, ?vlt_emb, ?vemb_ofq, ?E1, ?E2; cbn; auto.
    - intros ->. apply v_ext; rewrite vemb_ofq; cbn; auto.
    - intros [?|[? ?]]; auto. right. split; auto. qclra.
    - intros [?|[? ?]]; auto. right. split; auto. qclra.
  Qed.
  Lemma relv_bound r (c : Qc) (x : V) : srel r -> std x -> relv r x (vofq c) -> bs_rel (bound_rel r) x (vbound c r).
  Proof.
    intros Hs Hx. unfold std in Hx. pose proof (Hs c) as E2. pose proof (vemb_bound1 c r : (vemb (vbound c r : V)).1 = c) as E1.
    destruct r; cbn in *; rewrite ?vle_emb, ?vlt_emb, ?vemb_ofq, ?E1, ?E2, ?Hx; cbn; auto.
    - intros ->. apply v_ext; rewrite vemb_ofq; cbn; auto.
    - intros [?|[? ?]]; auto.
    - intros [?|[? ?]]; auto.
  Qed.

  Lemma relm_bound r (c : Qc) (x : V) : srel r -> bs_rel (bound_rel r) x (vbound c r) <-> relm r x c.
  Proof.
    intros Hs. pose proof (Hs c) as E2. pose proof (vemb_bound1 c r : (vemb (vbound c r : V)).1 = c) as E1.
    assert (E : r <> Rlt -> r <> Rgt -> vbound c r = (vofq c : V)) by (intros; apply v_ext; rewrite vemb_ofq; cbn; auto; rewrite E2; destruct r; congruence).
    destruct r; cbn [bound_rel bs_rel relm] in *; try (rewrite E by discriminate; tauto); rewrite vle_emb, E1, E2; cbn; intuition congruence.
  Qed.

  (** a relation other than < and > *)
  Definition nonstrict (r : rel) : Prop := r = Rle \/ r = Rge \/ r = Req.
  Lemma relv_bound_ns r (c : Qc) (x : V) : srel r -> nonstrict r -> relv r x (vofq c) -> bs_rel (bound_rel r) x (vbound c r).
  Proof.
    intros Hs Hn. pose proof (Hs c) as E2. pose proof (vemb_bound1 c r : (vemb (vbound c r : V)).1 = c) as E1.
    assert (E : r <> Rlt -> r <> Rgt -> vbound c r = (vofq c : V)) by (intros; apply v_ext; rewrite vemb_ofq; cbn; auto; rewrite E2; destruct r; congruence).
    destruct Hn as [-> |[-> | ->]]; cbn in *; rewrite E by discriminate; auto.
  Qed.
  Lemma nonstrict_invert r : nonstrict r -> nonstrict (invert r).
  Proof. unfold nonstrict. intros [-> |[-> | ->]]; cbn; auto. Qed.

  Lemma vscale_inv co (x : V) : co <> 0%Qc -> vscale (/ co) (vscale co x) = x.
  Proof. intros Hc. rewrite vscale_scale. replace (/ co * co)%Qc with 1%Qc by (field; auto). apply vscale_1. Qed.
  Lemma vscale_le_iff co (x y : V) : (0 < co)%Qc -> vle x y <-> vle (vscale co x) (vscale co y).
  Proof.
    intros Hc. split; [apply vscale_le; qclra|]. intros Hl. rewrite <- vnot_lt in *. intros Hx. apply Hl. apply vscale_lt; auto.
  Qed.
  Lemma vscale_le_iff_neg co (x y : V) : (co < 0)%Qc -> vle x y <-> vle (vscale co y) (vscale co x).
  Proof.
    intros Hc. split; [apply vscale_le_neg; qclra|]. intros Hl. rewrite <- vnot_lt in *. intros Hx. apply Hl. apply vscale_lt_neg; auto.
  Qed.
  Lemma vscale_lt_iff co (x y : V) : (0 < co)%Qc -> vlt x y <-> vlt (vscale co x) (vscale co y).
  Proof. intros Hc. rewrite <- !vnot_le. rewrite (vscale_le_iff co y x); tauto. Qed.
  Lemma vscale_lt_iff_neg co (x y : V) : (co < 0)%Qc -> vlt x y <-> vlt (vscale co y) (vscale co x).
  Proof. intros Hc. rewrite <- !vnot_le. rewrite (vscale_le_iff_neg co y x); tauto. Qed.

  Lemma relv_scale r co rhs (x : V) : co <> 0%Qc ->
    relv (if vltb co 0%Qc then invert r else r) x (vofq (rhs / co)%Qc) <-> relv r (vscale co x) (vofq rhs).
  Proof.
    intros Hc. assert (Ey : vscale co (vofq (rhs / co)%Qc) = (vofq rhs : V)).
    { apply v_ext; vpush; [|ring]. field. auto. }
    rewrite <- Ey. destruct (vltb co 0%Qc) eqn:Es.
    - apply vltb_lt in Es. rewrite vlt_emb in Es. cbn in Es. assert (Hn : (co < 0)%Qc) by (destruct Es as [?|[_ ?]]; auto; exfalso; qclra).
      destruct r; cbn; auto using vscale_le_iff_neg, vscale_lt_iff_neg.
      split; [intros ->; auto|]. intros E. rewrite <- (vscale_inv co x), E, vscale_inv; auto.
    - apply vltb_false in Es. rewrite vle_emb in Es. cbn in Es.
      assert (Hn : (0 < co)%Qc).
      { apply Qcnot_le_lt. intros Hle. apply Hc. destruct Es as [?|[? _]]; auto. apply Qcle_antisym; auto. qclra. }
      destruct r; cbn; auto using vscale_le_iff, vscale_lt_iff.
      split; [intros ->; auto|]. intros E. rewrite <- (vscale_inv co x), E, vscale_inv; auto.
  Qed.

  (** Bound::conflicts is exact: two bounds on one variable conflict iff no
      value satisfies both. *)
  Lemma bconflicts_spec (b c : bound V) : bconflicts b c = true <-> ~ exists v, bs_rel (b_rel b) v (b_val b) /\ bs_rel (b_rel c) v (b_val c).
  Proof.
    unfold bconflicts, bconflicts1. destruct (b_rel b), (b_rel c); cbn.
    - split; [discriminate|]. intros Hn. exfalso. apply Hn. destruct (vle_total (b_val b) (b_val c)) as [Hl|Hl].
      + exists (b_val b). split; auto using vle_refl.
      + exists (b_val c). split; auto using vle_refl, vlt_le.
    - rewrite vltb_lt. split.
      + intros Hl (v & H1 & H2). apply (vlt_irrefl (b_val b)). eapply vlt_le_trans; eauto. eapply vle_trans; eauto.
      + intros Hn. apply vnot_le. intros Hl. apply Hn. exists (b_val b). split; auto using vle_refl.
    - rewrite vltb_lt. split.
      + intros Hl (v & H1 & ->). apply (vlt_irrefl (b_val b)). eapply vlt_le_trans; eauto.
      + intros Hn. apply vnot_le. intros Hl. apply Hn. exists (b_val c). split; auto.
    - rewrite vltb_lt. split.
      + intros Hl (v & H1 & H2). apply (vlt_irrefl (b_val c)). eapply vlt_le_trans; eauto. eapply vle_trans; eauto.
      + intros Hn. apply vnot_le. intros Hl. apply Hn. exists (b_val b). split; auto using vle_refl.
    - split; [discriminate|]. intros Hn. exfalso. apply Hn. destruct (vle_total (b_val b) (b_val c)) as [Hl|Hl].
      + exists (b_val c). split; auto using vle_refl.
      + exists (b_val b). split; auto using vle_refl, vlt_le.
    - rewrite vltb_lt. split.
      + intros Hl (v & H1 & ->). apply (vlt_irrefl (b_val b)). eapply vle_lt_trans; eauto.
      + intros Hn. apply vnot_le. intros Hl. apply Hn. exists (b_val c). split; auto.
    - rewrite vltb_lt. split.
      + intros Hl (v & -> & H1). apply (vlt_irrefl (b_val c)). eapply vlt_le_trans; eauto.
      + intros Hn. apply vnot_le. intros Hl. apply Hn. exists (b_val b). split; auto.
    - rewrite vltb_lt. split.
      + intros Hl (v & -> & H1). apply (vlt_irrefl (b_val c)). eapply vle_lt_trans; eauto.
      + intros Hn. apply vnot_le. intros Hl. apply Hn. exists (b_val b). split; auto.
    - rewrite negb_true_iff, veqb_false. split.
      + intros Hne (v & -> & E). auto.
      + intros Hn E. apply Hn. exists (b_val b). auto.
  Qed.
End meaning.

Section prepare.
  Context {V : Type} `{VL : ValueLaws V} {Sym : Type}.
  Implicit Types s : solver V.
  Implicit Types b : bound V.
  Implicit Types q : ineq Sym.
  Context (syms : list Sym) (find : Sym -> option nat).
  Context (Hfind : forall x k, find x = Some k <-> syms !! k = Some x).

  (** what the parser guarantees about a linear expression *)
  Definition okterms (ts : list (Qc * Sym)) : Prop :=
    NoDup (map snd ts) /\ forall c x, (c, x) ∈ ts -> is_Some (find x) /\ c <> 0%Qc.

  (** the assignment of symbols an assignment of variables stands for *)
  Definition rd (a : nat -> V) (x : Sym) : V := match find x with Some k => a k | None => vzero end.

  Fixpoint rowc (ts : list (Qc * Sym)) : list (nat * Qc) :=
    match ts with [] => [] | (c, x) :: r => (match find x with Some k => k | None => 0 end, c) :: rowc r end.
  Lemma rowc_len ts : length (rowc ts) = length ts.
  Proof. induction ts as [|[c x] ts IH]; cbn; auto. Qed.
  Lemma find_lt x k : find x = Some k -> k < length syms.
  Proof. intros E. apply Hfind, lookup_lt_Some in E. auto. Qed.
  Lemma find_inj x y k : find x = Some k -> find y = Some k -> x = y.
  Proof. rewrite !Hfind. congruence. Qed.
  Lemma rowc_in ts k c : okterms ts -> (k, c) ∈ rowc ts <-> exists x, find x = Some k /\ (c, x) ∈ ts.
  Proof.
    induction ts as [|[d y] ts IH]; cbn; intros [N Hok].
    - split; [intros Hx; inversion Hx|intros (x & _ & Hx); inversion Hx].
    - cbn in N. apply NoDup_cons in N as [N1 N2]. destruct (Hok d y) as [[m Em] _]; [left|]. rewrite Em.
      rewrite elem_of_cons, IH by (split; auto; intros; apply Hok; right; auto). split.
      + intros [E|(x & E1 & E2)]; [injection E as -> ->; exists y; split; auto; left|]. exists x. split; auto. right. auto.
      + intros (x & E1 & E2). apply elem_of_cons in E2 as [E2|E2]; [injection E2 as -> ->; left; congruence|right; eauto].
  Qed.
  Lemma rowc_nodup ts : okterms ts -> NoDup (map fst (rowc ts)).
  Proof.
    induction ts as [|[d y] ts IH]; intros Ho; [constructor|]. pose proof Ho as [N Hok]. cbn in N. apply NoDup_cons in N as [N1 N2].
    assert (Ho' : okterms ts) by (split; auto; intros; apply Hok; right; auto). cbn. apply NoDup_cons. split; [|auto].
    destruct (Hok d y) as [[m Em] _]; [left|]. rewrite Em. intros Hin. apply elem_of_map_fst in Hin as (c & Hin).
    apply rowc_in in Hin as (x & Ex & Hx); auto. assert (x = y) as -> by (eapply find_inj; eauto).
    apply N1. apply elem_of_map_snd. eauto.
  Qed.
  Lemma linV_rowc a ts : okterms ts -> linV (rd a) ts = lsum (fun e : nat * Qc => vscale e.2 (a e.1)) (rowc ts).
  Proof.
    induction ts as [|[d y] ts IH]; intros [N Hok]; [reflexivity|]. cbn. cbn in N. apply NoDup_cons in N as [N1 N2].
    rewrite IH by (split; auto; intros; apply Hok; right; auto). destruct (Hok d y) as [[m Em] _]; [left|]. unfold rd. rewrite Em. auto.
  Qed.

  Lemma prep_row_ok s ts : okterms ts -> (forall x, vr s x = new_var x) -> length syms <= nv s -> prep_row find s ts = Ok (rowc ts).
  Proof.
    intros Ho Hv Hn. induction ts as [|[d y] ts IH]; [reflexivity|]. destruct Ho as [N Hok]. cbn. cbn in N. apply NoDup_cons in N as [N1 N2].
    destruct (Hok d y) as [[m Em] _]; [left|]. rewrite Em. cbn. apply find_lt in Em. rewrite at_vr by lia. cbn. rewrite Hv.
    rewrite IH by (split; auto; intros; apply Hok; right; auto). reflexivity.
  Qed.

  (** how a bound represents a constraint: syntactically ... *)
  Definition repr0 (defs : list (list (nat * Qc))) q b : Prop :=
    b_lit b = q_lit q /\ q_lhs q <> [] /\
    ((exists j co, rowc (q_lhs q) = [(j, co)] /\ b_var b = j /\
        b_val b = vbound (q_rhs q / co)%Qc (if vltb co 0%Qc then invert (q_rel q) else q_rel q) /\
        b_rel b = bound_rel (if vltb co 0%Qc then invert (q_rel q) else q_rel q)) \/
     (exists i, 1 < length (q_lhs q) /\ defs !! i = Some (rowc (q_lhs q)) /\ b_var b = length syms + i /\ b_val b = vbound (q_rhs q) (q_rel q) /\ b_rel b = bound_rel (q_rel q))).
  Lemma repr0_mono defs defs' q b : repr0 defs q b -> repr0 (defs ++ defs') q b.
  Proof.
    intros (E & Hne & [Hs|(i & El & Ed & Hs)]); split; auto; split; auto. right. exists i. split; auto. split; auto.
    rewrite lookup_app_l; auto. apply lookup_lt_Some in Ed. auto.
  Qed.
  (** ... and semantically *)
  Definition repr s q b : Prop :=
    b_lit b = q_lit q /\ (forall a, rows s a -> bsat a b -> holdsV (rd a) q) /\
    (forall a, rows s a -> (forall x, std (rd a x)) \/ nonstrict (q_rel q) -> holdsV (rd a) q -> bsat a b) /\
    (forall a, rows s a -> bsat a b <-> keptV (rd a) q).

  (** invariant of the loop: [defs] are the rows of the tableau, [don] the
      constraints seen so far *)
  Record fr (h : host) (don : list (ineq Sym)) (defs : list (list (nat * Qc))) s : Prop := {
    fr_vars : forall x, vr s x = new_var x;
    fr_nv : nv s = s_nn s + s_nb s;
    fr_nn : s_nn s = length syms;
    fr_nb : s_nb s = length defs;
    fr_tab : tab_wf (s_tab s);
    fr_get : forall i j, tget (s_tab s) i j = match defs !! i with Some r => cget r j | None => 0%Qc end;
    fr_defs : forall i r, defs !! i = Some r -> NoDup (map fst r) /\ forall k c, (k, c) ∈ r -> k < length syms;
    fr_rest : s_btrail s = [] /\ s_atrail s = [] /\ s_offs s = [] /\ s_conf s = [] /\ s_pq s = [] /\ s_obj s = new_obj /\ s_clause s = [] /\ s_pivots s = 0 /\ s_props s = 0;
    fr_ids : forall i b, s_bounds s !! i = Some b -> b_id b = i;
    fr_bnd : forall b, b ∈ s_bounds s -> exists q, q ∈ don /\ repr0 defs q b;
    fr_cpl : forall q, q ∈ don -> q_lhs q <> [] -> (forall log, h_false h log (q_lit q) = false) -> exists b, b ∈ s_bounds s /\ repr0 defs q b;
    fr_uni : forall b b', b ∈ s_bounds s -> b' ∈ s_bounds s -> b_var b = b_var b' -> length syms <= b_var b -> b = b';
    fr_bv : forall b, b ∈ s_bounds s -> b_var b < length syms + length defs;
  }.

  Lemma fr_init h : fr h [] [] (prep_init (length syms)).
  Proof.
    constructor; cbn; auto.
    - intros x. unfold vr. cbn. destruct (map new_var (seq 0 (length syms)) !! x) eqn:E; auto. rewrite list_lookup_fmap in E.
      destruct (seq 0 (length syms) !! x) eqn:E2; cbn in E; [|discriminate]. apply lookup_seq in E2 as [-> _]. cbn in *. congruence.
    - unfold nv. cbn. rewrite map_length, seq_length. auto.
    - apply empty_tab_wf.
    - intros i r E. cbn in E. discriminate.
    - repeat split.
    - intros i b E. discriminate.
    - intros b Hb. inversion Hb.
    - intros q Hq. inversion Hq.
    - intros b b' Hb. inversion Hb.
    - intros b Hb. inversion Hb.
  Qed.

  Lemma vr_app s i y : (forall x, vr s x = new_var x) -> i = nv s -> vr (set_vars (s_vars s ++ [new_var i]) s) y = new_var y.
  Proof.
    intros Hv ->. unfold vr. cbn. destruct (Nat.lt_ge_cases y (nv s)) as [Hy|Hy].
    - rewrite lookup_app_l by auto. apply Hv.
    - rewrite lookup_app_r by auto. fold (nv s). destruct (y - nv s) as [|m] eqn:E; cbn; [|rewrite ?lookup_nil; auto].
      f_equal. lia.
  Qed.

  (** a new row *)
  Lemma fr_add h don defs s r : fr h don defs s -> NoDup (map fst r) -> (forall k c, (k, c) ∈ r -> k < length syms) ->
    fr h don (defs ++ [r]) (set_cells (length defs) r (add_basic s).1) /\ (add_basic s).2 = length defs /\
    length (s_vars (add_basic s).1) = length syms + length defs + 1.
  Proof.
    intros [F1 F2 F3 F4 F5 F6 F7 F8 F9 F10 F11 F12 F13] Hn Hk. split; [|split; [exact F4|]].
    2:{ cbn. rewrite app_length. cbn. unfold nv in F2. lia. }
    destruct (tsets_spec r (s_tab s) (length defs) F5 Hn) as [W G].
    constructor; auto.
    - intros x. exact (vr_app s (length (s_vars s)) x F1 eq_refl).
    - unfold nv in *. cbn. rewrite app_length. cbn. lia.
    - cbn. rewrite app_length. cbn. lia.
    - intros i j. cbn [set_cells s_tab set_tab]. etransitivity; [apply G|].
      destruct (decide (i = length defs)) as [->|Hi].
      + rewrite (F6 (length defs) j), (lookup_ge_None_2 defs) by lia. rewrite list_lookup_middle by auto.
        destruct (decide _) as [|Hno]; auto. symmetry. apply cget_notin. tauto.
      + rewrite decide_False by tauto. rewrite F6. destruct (Nat.lt_ge_cases i (length defs)).
        * rewrite lookup_app_l by auto. auto.
        * rewrite !lookup_ge_None_2; auto. rewrite app_length. cbn. lia.
    - intros i r' E. destruct (Nat.lt_ge_cases i (length defs)).
      + rewrite lookup_app_l in E by auto. eauto.
      + rewrite lookup_app_r in E by auto. apply list_lookup_singleton_Some in E as [_ <-]. auto.
    - intros b Hb. destruct (F10 b Hb) as (q & Hq & Hr). exists q. split; auto. apply repr0_mono; auto.
    - intros q Hq Hne Hf. destruct (F11 q Hq Hne Hf) as (b & Hb & Hr). exists b. split; auto. apply repr0_mono; auto.
    - intros b Hb. rewrite app_length. cbn. pose proof (F13 b Hb). lia.
  Qed.

  (** a new bound *)
  Lemma fr_bound h don defs s v x l r q : fr h don defs s -> q ∈ don -> repr0 defs q (Bound (length (s_bounds s)) v x l r) ->
    x < length syms + length defs -> (length syms <= x -> forall b, b ∈ s_bounds s -> b_var b <> x) -> fr h don defs (add_bound v x l r s).
  Proof.
    intros [F1 F2 F3 F4 F5 F6 F7 F8 F9 F10 F11 F12 F13] Hq Hr Hx Hu. constructor; auto; cbn.
    - intros i b E. destruct (Nat.lt_ge_cases i (length (s_bounds s))).
      + rewrite lookup_app_l in E by auto. eauto.
      + rewrite lookup_app_r in E by auto. apply list_lookup_singleton_Some in E as [? <-]. cbn. lia.
    - intros b Hb. apply elem_of_app in Hb as [Hb|Hb]; [apply F10; auto|]. apply elem_of_list_singleton in Hb as ->. eauto.
    - intros q' Hq' Hne Hf. destruct (F11 q' Hq' Hne Hf) as (b & Hb & Hr'). exists b. split; auto. apply elem_of_app; auto.
    - intros b b' Hb Hb' E Hl. apply elem_of_app in Hb as [Hb|Hb], Hb' as [Hb'|Hb']; [apply F12; auto| | |].
      1-2: exfalso.
      + apply elem_of_list_singleton in Hb' as ->. cbn in E. apply (Hu ltac:(lia) b Hb). auto.
      + apply elem_of_list_singleton in Hb as ->. cbn in *. apply (Hu ltac:(lia) b' Hb'). auto.
      + apply elem_of_list_singleton in Hb as ->. apply elem_of_list_singleton in Hb' as ->. auto.
    - intros b Hb. apply elem_of_app in Hb as [Hb|Hb]; [apply F13; auto|]. apply elem_of_list_singleton in Hb as ->. auto.
  Qed.

  Lemma fr_skip h don defs s q : fr h don defs s -> (q_lhs q <> [] -> (forall log, h_false h log (q_lit q) = false) -> exists b, b ∈ s_bounds s /\ repr0 defs q b) ->
    fr h (don ++ [q]) defs s.
  Proof.
    intros [F1 F2 F3 F4 F5 F6 F7 F8 F9 F10 F11 F12 F13] Hq. constructor; auto.
    - intros b Hb. destruct (F10 b Hb) as (q' & Hq' & Hr). exists q'. split; auto. apply elem_of_app; auto.
    - intros q' Hq' Hne Hf. apply elem_of_app in Hq' as [Hq'|Hq']; [auto|]. apply elem_of_list_singleton in Hq' as ->. auto.
  Qed.

  Lemma prep_ineq_ok h master q s log don defs : fr h don defs s -> okterms (q_lhs q) ->
    exists s' log' ok, prep_ineq h find master q s log = Ok (s', log', ok) /\
      (exists defs', fr h (don ++ [q]) (defs ++ defs') s') /\
      (exists new, log' = log ++ new /\ (forall c, c ∈ new -> q_lhs q = [] /\ c = [(- q_lit q)%Z] /\ empty_row_clause (q_rel q) (q_rhs q) = true) /\
        (master = true -> q_lhs q = [] -> (forall log, h_false h log (q_lit q) = false) -> empty_row_clause (q_rel q) (q_rhs q) = true -> new = [[(- q_lit q)%Z]])).
  Proof.
    intros F Ho. unfold prep_ineq. destruct (h_false h log (q_lit q)) eqn:Ef.
    { exists s, log, true. split; auto. split.
      - exists []. rewrite app_nil_r. apply fr_skip; auto. intros _ Hx. rewrite Hx in Ef. discriminate.
      - exists []. rewrite app_nil_r. split; auto. split; [intros c Hc; inversion Hc|]. intros _ _ Hx. rewrite Hx in Ef. discriminate. }
    pose proof F as [F1 F2 F3 F4 F5 F6 F7 F8 F9 F10 F11 F12 F13].
    rewrite (prep_row_ok s (q_lhs q)) by (auto; lia). cbn [mbind res_bind].
    assert (Hin : forall k c, (k, c) ∈ rowc (q_lhs q) -> k < length syms /\ c <> 0%Qc).
    { intros k c Hc. apply rowc_in in Hc as (x & Ex & Hx); auto. split; [eapply find_lt; eauto|]. eapply Ho; eauto. }
    destruct (rowc (q_lhs q)) as [|[j v] [|c2 rr]] eqn:Er.
    - assert (El : q_lhs q = []) by (destruct (q_lhs q) as [|[? ?] ?]; auto; discriminate).
      assert (F' : fr h (don ++ [q]) defs s) by (apply fr_skip; auto; congruence).
      destruct master; cbn [negb].
      + destruct (empty_row_clause (q_rel q) (q_rhs q)) eqn:Ee.
        * eexists _, _, _. split; [reflexivity|]. split; [exists []; rewrite app_nil_r; auto|]. eexists. split; [reflexivity|].
          split; auto. intros c Hc. apply elem_of_list_singleton in Hc as ->. auto.
        * eexists _, _, _. split; [reflexivity|]. split; [exists []; rewrite app_nil_r; auto|]. exists []. rewrite app_nil_r. split; auto.
          split; [intros c Hc; inversion Hc|discriminate].
      + eexists _, _, _. split; [reflexivity|]. split; [exists []; rewrite app_nil_r; auto|]. exists []. rewrite app_nil_r. split; auto.
        split; [intros c Hc; inversion Hc|discriminate].
    - destruct (Hin j v) as [Hj Hv]; [left|]. rewrite (proj2 (veqb_false v 0%Qc) Hv). cbn [negb guard_ub mbind res_bind].
      rewrite at_vr by lia. cbn [mbind res_bind]. rewrite F1. cbn [v_index new_var].
      eexists _, _, _. split; [reflexivity|]. assert (Hne : q_lhs q <> []) by (intros E; rewrite E in Er; discriminate).
      split; [|exists []; rewrite app_nil_r; split; auto; split; [intros c Hc; inversion Hc|congruence]].
      exists []. rewrite app_nil_r.
      set (r := if vltb v 0%Qc then invert (q_rel q) else q_rel q).
      assert (R : repr0 defs q (Bound (length (s_bounds s)) (vbound (q_rhs q / v)%Qc r) j (q_lit q) (bound_rel r))).
      { split; [reflexivity|]. split; auto. left. exists j, v. split; auto. }
      set (B := Bound (length (s_bounds s)) (vbound (q_rhs q / v)%Qc r) j (q_lit q) (bound_rel r)).
      assert (G : fr h (don ++ [q]) defs s -> fr h (don ++ [q]) defs (add_bound (vbound (q_rhs q / v)%Qc r) j (q_lit q) (bound_rel r) s)).
      { intros F'. apply (fr_bound h _ defs s _ _ _ _ q); auto; [apply elem_of_app; right; left|lia|lia]. }
      clear G. constructor; auto.
      + cbn. intros i b E. destruct (Nat.lt_ge_cases i (length (s_bounds s))).
        * rewrite lookup_app_l in E by auto. eauto.
        * rewrite lookup_app_r in E by auto. apply list_lookup_singleton_Some in E as [? <-]. cbn. lia.
      + cbn. intros b Hb. apply elem_of_app in Hb as [Hb|Hb].
        * destruct (F10 b Hb) as (q' & Hq' & Hr). exists q'. split; auto. apply elem_of_app; auto.
        * apply elem_of_list_singleton in Hb as ->. exists q. split; auto. apply elem_of_app; right; left.
      + cbn. intros q' Hq' Hne' Hf'. apply elem_of_app in Hq' as [Hq'|Hq'].
        * destruct (F11 q' Hq' Hne' Hf') as (b & Hb & Hr). exists b. split; auto. apply elem_of_app; auto.
        * apply elem_of_list_singleton in Hq' as ->. exists B. split; auto. apply elem_of_app; right; left.
      + cbn. intros b b' Hb Hb' E Hl. apply elem_of_app in Hb as [Hb|Hb], Hb' as [Hb'|Hb']; auto.
        * apply elem_of_list_singleton in Hb' as ->. cbn in E. lia.
        * apply elem_of_list_singleton in Hb as ->. cbn in Hl. lia.
        * apply elem_of_list_singleton in Hb as ->. apply elem_of_list_singleton in Hb' as ->. auto.
      + cbn. intros b Hb. apply elem_of_app in Hb as [Hb|Hb]; auto. apply elem_of_list_singleton in Hb as ->. cbn. lia.
    - rewrite <- Er in *. assert (Hne : q_lhs q <> []) by (intros E; rewrite E in Er; discriminate).
      assert (Hlen : 1 < length (q_lhs q)) by (rewrite <- rowc_len, Er; cbn; lia).
      destruct (fr_add h don defs s (rowc (q_lhs q)) F) as (G & Ei & En); [apply rowc_nodup; auto|intros k c Hc; apply (Hin k c); auto|].
      destruct (add_basic s) as [s1 i] eqn:Ea. cbn [fst snd] in *. subst i. rewrite En.
      eexists _, _, _. split; [reflexivity|].
      split; [|exists []; rewrite app_nil_r; split; auto; split; [intros c Hc; inversion Hc|congruence]].
      exists [rowc (q_lhs q)].
      replace (length syms + length defs + 1 - 1) with (length syms + length defs) by lia.
      assert (Eb : s_bounds s1 = s_bounds s) by (unfold add_basic in Ea; injection Ea as <-; reflexivity).
      set (B := Bound (length (s_bounds s)) (vbound (q_rhs q) (q_rel q)) (length syms + length defs) (q_lit q) (bound_rel (q_rel q))).
      assert (R : repr0 (defs ++ [rowc (q_lhs q)]) q B).
      { split; [reflexivity|]. split; auto. right. exists (length defs). split; auto. split; [apply list_lookup_middle; auto|]. auto. }
      destruct G as [G1 G2 G3 G4 G5 G6 G7 G8 G9 G10 G11 G12 G13]. cbn in G9, G10, G11, G12, G13. rewrite Eb in *.
      constructor; auto; cbn; rewrite Eb.
      + intros i b E. destruct (Nat.lt_ge_cases i (length (s_bounds s))).
        * rewrite lookup_app_l in E by auto. eauto.
        * rewrite lookup_app_r in E by auto. apply list_lookup_singleton_Some in E as [? <-]. cbn. lia.
      + intros b Hb. apply elem_of_app in Hb as [Hb|Hb].
        * destruct (G10 b Hb) as (q' & Hq' & Hr). exists q'. split; auto. apply elem_of_app; auto.
        * apply elem_of_list_singleton in Hb as ->. exists q. split; auto. apply elem_of_app; right; left.
      + intros q' Hq' Hne' Hf'. apply elem_of_app in Hq' as [Hq'|Hq'].
        * destruct (G11 q' Hq' Hne' Hf') as (b & Hb & Hr). exists b. split; auto. apply elem_of_app; auto.
        * apply elem_of_list_singleton in Hq' as ->. exists B. split; auto. apply elem_of_app; right; left.
      + intros b b' Hb Hb' E Hl. apply elem_of_app in Hb as [Hb|Hb], Hb' as [Hb'|Hb']; auto.
        * apply elem_of_list_singleton in Hb' as ->. cbn in E. pose proof (F13 b Hb). lia.
        * apply elem_of_list_singleton in Hb as ->. cbn in E. pose proof (F13 b' Hb'). lia.
        * apply elem_of_list_singleton in Hb as ->. apply elem_of_list_singleton in Hb' as ->. auto.
      + intros b Hb. apply elem_of_app in Hb as [Hb|Hb]; auto. apply elem_of_list_singleton in Hb as ->. cbn. rewrite app_length. cbn. lia.
  Qed.

  Definition unit_clause (qs : list (ineq Sym)) (c : list Z) : Prop :=
    exists q, q ∈ qs /\ q_lhs q = [] /\ c = [(- q_lit q)%Z] /\ empty_row_clause (q_rel q) (q_rhs q) = true.
  Lemma prep_ineqs_ok h master qs : forall s log don defs, fr h don defs s -> (forall q, q ∈ qs -> okterms (q_lhs q)) ->
    exists s' log' ok, prep_ineqs h find master qs s log = Ok (s', log', ok) /\
      (ok = true -> exists defs', fr h (don ++ qs) (defs ++ defs') s') /\
      (exists new, log' = log ++ new /\ (forall c, c ∈ new -> unit_clause qs c) /\
        (ok = true -> master = true -> forall q, q ∈ qs -> q_lhs q = [] -> (forall log, h_false h log (q_lit q) = false) ->
           empty_row_clause (q_rel q) (q_rhs q) = true -> [(- q_lit q)%Z] ∈ new)).
  Proof.
    induction qs as [|q qs IH]; intros s log don defs F Ho; cbn [prep_ineqs].
    - exists s, log, true. split; auto. split; [exists []; rewrite !app_nil_r; auto|]. exists []. rewrite app_nil_r. split; auto.
      split; [intros c Hc; inversion Hc|intros _ _ q Hq; inversion Hq].
    - destruct (prep_ineq_ok h master q s log don defs F) as (s1 & log1 & ok1 & -> & (d1 & F1) & (n1 & -> & N1 & M1)); [apply Ho; left|].
      cbn [mbind res_bind]. destruct ok1.
      + destruct (IH s1 (log ++ n1) _ _ F1) as (s2 & log2 & ok2 & -> & F2 & (n2 & -> & N2 & M2)); [intros q' Hq'; apply Ho; right; auto|].
        exists s2, ((log ++ n1) ++ n2), ok2. split; auto. split.
        * intros E. destruct (F2 E) as (d2 & F2'). exists (d1 ++ d2). rewrite <- !app_assoc in F2'. exact F2'.
        * exists (n1 ++ n2). rewrite app_assoc. split; auto. split.
          -- intros c Hc. apply elem_of_app in Hc as [Hc|Hc].
             ++ destruct (N1 c Hc) as (? & ? & ?). exists q. split; [left|auto].
             ++ destruct (N2 c Hc) as (q' & ? & ?). exists q'. split; [right; auto|auto].
          -- intros E Em q' Hq' El Ef Ee. apply elem_of_app. apply elem_of_cons in Hq' as [->|Hq'].
             ++ left. rewrite (M1 Em El Ef Ee). left.
             ++ right. eauto.
      + exists s1, (log ++ n1), false. split; auto. split; [discriminate|]. exists n1. split; auto. split; [|discriminate].
        intros c Hc. destruct (N1 c Hc) as (? & ? & ?). exists q. split; [left|auto].
  Qed.

  (** ** Meaning of the rows *)
  Lemma fr_rows h don defs s a : fr h don defs s ->
    rows s a <-> forall i r, defs !! i = Some r -> a (length syms + i) = lsum (fun e : nat * Qc => vscale e.2 (a e.1)) r.
  Proof.
    intros [F1 F2 F3 F4 F5 F6 F7 F8 F9 F10 F11 F12 F13].
    assert (HB : forall x, Bs s x = (length syms <=? x)) by (intros x; unfold Bs, ridx; rewrite F1, F3; auto).
    assert (HT : forall i k r, defs !! i = Some r -> Ts s (length syms + i) k = cget r k).
    { intros i k r E. unfold Ts, ridx. rewrite !F1, F3. cbn [v_rindex new_var]. rewrite F6.
      replace (length syms + i - length syms) with i by lia. rewrite E. auto. }
    assert (HR : forall i r, defs !! i = Some r -> rowval (nv s) (Bs s) (Ts s) a (length syms + i) = lsum (fun e : nat * Qc => vscale e.2 (a e.1)) r).
    { intros i r E. unfold rowval. destruct (F7 i r E) as [Nd Hk]. symmetry. apply (lsum_vsum fst); auto.
      - intros [k c] Hin. cbn. split; [pose proof (Hk k c Hin); lia|]. rewrite HB.
        destruct (Nat.leb_spec (length syms) k); [pose proof (Hk k c Hin); lia|]. rewrite (HT i k r E). rewrite (cget_in r k c); auto.
      - intros k Hk2 Hne. destruct (Bs s k); [congruence|]. rewrite (HT i k r E) in Hne.
        destruct (decide (k ∈ map fst r)) as [Hin|Hin].
        + apply elem_of_map_fst in Hin as (c & Hin). exists (k, c). auto.
        + rewrite cget_notin in Hne by auto. rewrite vscale_0 in Hne. congruence. }
    split.
    - intros Hr i r E. pose proof (lookup_lt_Some _ _ _ E) as Hi. rewrite (Hr (length syms + i)); [apply HR; auto|lia|].
      rewrite HB. apply Nat.leb_le. lia.
    - intros Hd b Hb HBb. rewrite HB in HBb. apply Nat.leb_le in HBb.
      destruct (defs !! (b - length syms)) as [r|] eqn:E; [|apply lookup_ge_None in E; lia].
      replace b with (length syms + (b - length syms)) by lia. rewrite HR with (r := r); auto.
  Qed.

  Lemma fr_repr h don defs s q b : fr h don defs s -> okterms (q_lhs q) ->
    srel (V := V) (q_rel q) -> srel (V := V) (invert (q_rel q)) -> repr0 defs q b -> repr s q b.
  Proof.
    intros F Ho S1 S2 (El & Hne & Hb). split; auto.
    assert (Hbs : forall a, bsat a b <-> bs_rel (b_rel b) (a (b_var b)) (b_val b)) by (intros a; unfold bsat, bs_rel; destruct (b_rel b); tauto).
    destruct Hb as [(j & co & Er & Ev & Eb & Ebr)|(i & Hl & Ed & Ev & Eb & Ebr)].
    - assert (Hco : co <> 0%Qc).
      { assert (Hin : (j, co) ∈ rowc (q_lhs q)) by (rewrite Er; left). apply rowc_in in Hin as (x & _ & Hx); auto. eapply Ho; eauto. }
      assert (Hlin : forall a, linV (rd a) (q_lhs q) = vscale co (a j)).
      { intros a. rewrite linV_rowc, Er by auto. cbn. apply vadd_0_r. }
      assert (Sr : srel (V := V) (if vltb co 0%Qc then invert (q_rel q) else q_rel q)) by (destruct (vltb _ _); auto).
      split; [|split]; intros a _.
      + rewrite Hbs. unfold holdsV. rewrite Hlin, Ev, Eb, Ebr. intros Hs. apply bound_relv in Hs; auto. apply relv_scale in Hs; auto.
      + intros Hstd. rewrite Hbs. unfold holdsV. rewrite Hlin, Ev, Eb, Ebr. intros Hs. apply relv_scale in Hs; auto. destruct Hstd as [Hstd|Hns].
        2:{ apply relv_bound_ns; auto. destruct (vltb co 0%Qc); auto using nonstrict_invert. }
        apply relv_bound; auto.
        assert (Hin : (j, co) ∈ rowc (q_lhs q)) by (rewrite Er; left). apply rowc_in in Hin as (x & Ex & Hx); auto.
        specialize (Hstd x). unfold rd in Hstd. rewrite Ex in Hstd. auto.
      + rewrite Hbs, Ev, Eb, Ebr, relm_bound by auto. unfold keptV. destruct (q_lhs q) as [|[c x] [|[c2 x2] ts]] eqn:El2; try discriminate. cbn in Er. injection Er as Ej ->.
        destruct (proj2 Ho co x) as [[k Ek] _]; [left|]. unfold rd. rewrite Ek in *. subst k.
        replace (if vltb co 0%Qc then invert (q_rel q) else q_rel q) with (if Qclt_le_dec co 0 then mirrored (q_rel q) else q_rel q); [tauto|].
        destruct (Qclt_le_dec co 0) as [Hlt|Hle].
        * rewrite (proj2 (vltb_lt co 0%Qc)); [destruct (q_rel q); auto|]. rewrite vlt_emb. cbn. auto.
        * destruct (vltb co 0%Qc) eqn:Es; auto. exfalso. apply vltb_lt in Es. rewrite vlt_emb in Es. cbn in Es. destruct Es as [?|[_ ?]]; qclra.
    - assert (Hlin : forall a, rows s a -> linV (rd a) (q_lhs q) = a (length syms + i)).
      { intros a Hr. rewrite linV_rowc by auto. symmetry. apply (fr_rows h don defs s a F); auto. }
      split; [|split]; intros a Hr.
      + rewrite Hbs. unfold holdsV. rewrite Hlin, Ev, Eb, Ebr by auto. apply bound_relv; auto.
      + intros Hstd. rewrite Hbs. unfold holdsV. rewrite Ev, Eb, Ebr, <- Hlin by auto. destruct Hstd as [Hstd|Hns]; [|apply relv_bound_ns; auto]. apply relv_bound; auto. apply std_linV; auto.
      + rewrite Hbs, Ev, Eb, Ebr, relm_bound, <- Hlin by auto. unfold keptV. destruct (q_lhs q) as [|[c x] [|[c2 x2] ts]]; cbn in Hl; try lia. tauto.
  Qed.

  (** every assignment of the symbols extends to the rows *)
  Definition ext (defs : list (list (nat * Qc))) (A : Sym -> V) (k : nat) : V :=
    match syms !! k with
    | Some x => A x
    | None => match defs !! (k - length syms) with
              | Some r => lsum (fun e : nat * Qc => vscale e.2 (match syms !! e.1 with Some x => A x | None => vzero end)) r
              | None => vzero
              end
    end.
  Lemma fr_ext h don defs s A : fr h don defs s -> rows s (ext defs A) /\ forall x, is_Some (find x) -> rd (ext defs A) x = A x.
  Proof.
    intros F. split.
    - apply (fr_rows h don defs s _ F). intros i r E. unfold ext at 1. rewrite lookup_ge_None_2 by lia.
      replace (length syms + i - length syms) with i by lia. rewrite E. apply lsum_ext. intros [k c] Hin.
      destruct (fr_defs _ _ _ _ F i r E) as [_ Hk]. specialize (Hk k c Hin). unfold ext. cbn.
      destruct (lookup_lt_is_Some_2 syms k Hk) as [x ->]. auto.
    - intros x [k E]. unfold rd, ext. rewrite E. apply Hfind in E. rewrite E. auto.
  Qed.

  (** ** Objective *)
  Definition is_row s (z : nat) (ts : list (Qc * Sym)) : Prop :=
    z < nv s /\ Bs s z = true /\ (forall b, b ∈ s_bounds s -> b_var b <> z) /\ forall a, rows s a -> a z = linV (rd a) ts.

  Lemma fr_is_row h don defs s i ts : fr h don defs s -> okterms ts -> defs !! i = Some (rowc ts) ->
    (forall b, b ∈ s_bounds s -> b_var b <> length syms + i) -> is_row s (length syms + i) ts.
  Proof.
    intros F Ho E Hb. pose proof F as [F1 F2 F3 F4 F5 F6 F7 F8 F9 F10 F11 F12 F13]. pose proof (lookup_lt_Some _ _ _ E). split; [lia|]. split; [|split; auto].
    - unfold Bs, ridx. rewrite F1, F3. apply Nat.leb_le. cbn. lia.
    - intros a Hr. rewrite linV_rowc by auto. apply (fr_rows h don defs s a F); auto.
  Qed.

  Lemma prep_objective_ok h (o : options) obj s don defs : fr h don defs s -> okterms obj ->
    exists s' defs' ob, prep_objective o find obj s = Ok (set_obj ob s') /\ fr h don (defs ++ defs') s' /\ s_bounds s' = s_bounds s /\
      ob_gen ob = 0 /\ ob_discard ob = false /\ ob_bounded ob = true /\
      (obj = [] -> ob_active ob = false) /\
      (obj <> [] -> ob_active ob = true /\ is_row s' (ob_var ob) obj /\
         (o_global o <> None -> is_row s' (ob_bound_var ob) obj /\ ob_bound_var ob <> ob_var ob)).
  Proof.
    intros F Ho. unfold prep_objective. pose proof F as [F1 F2 F3 F4 F5 F6 F7 F8 F9 F10 F11 F12 F13].
    destruct obj as [|t obj'] eqn:Eobj.
    { exists s, [], new_obj. rewrite app_nil_r. destruct F8 as (? & ? & ? & ? & ? & Eo & ? & ? & ?). split; [rewrite <- Eo; destruct s; reflexivity|].
      split; auto. split; auto. split; auto. split; auto. split; auto. split; auto. congruence. }
    assert (Hnobj : obj <> []) by (rewrite Eobj; discriminate). rewrite <- Eobj in *. clear Eobj. rewrite (prep_row_ok s obj) by (auto; lia). cbn [mbind res_bind].
    set (r := rowc obj) in *. pose proof (rowc_nodup obj Ho) as Hn.
    assert (Hk : forall k c, (k, c) ∈ r -> k < length syms).
    { intros k c Hc. apply rowc_in in Hc as (x & Ex & Hx); auto. eapply find_lt; eauto. }
    assert (Hadd : forall s defs, fr h don defs s -> exists s1 n, (let '(s1, i) := add_basic s in (set_cells i r s1, length (s_vars s1) - 1)) = (s1, n) /\
        fr h don (defs ++ [r]) s1 /\ n = length syms + length defs /\ s_bounds s1 = s_bounds s /\ s_obj s1 = s_obj s).
    { intros s' d' F'. destruct (fr_add h don d' s' r F' Hn Hk) as (G & Ei & En). destruct (add_basic s') as [s1 i] eqn:Ea.
      cbn [fst snd] in *. subst i. eexists _, _. split; [reflexivity|]. split; auto. split; [rewrite En; lia|].
      unfold add_basic in Ea. injection Ea as <-. auto. }
    destruct (o_global o) as [g|].
    - destruct (Hadd s defs F) as (s1 & n1 & -> & G1 & -> & B1 & O1).
      destruct (Hadd s1 _ G1) as (s2 & n2 & -> & G2 & -> & B2 & O2).
      exists s2, ([r] ++ [r]). eexists. split; [reflexivity|]. rewrite app_assoc. split; auto. split; [congruence|].
      assert (Eo : s_obj s2 = new_obj) by (rewrite O2, O1; apply F8). rewrite Eo. cbn [ob_gen ob_discard ob_bounded ob_active ob_var ob_bound_var new_obj].
      split; auto. split; auto. split; auto. split; [congruence|].
      intros _. split; auto. split; [|intros _; split].
      + apply (fr_is_row h don _ _ _ obj G2); auto; [apply list_lookup_middle; auto|]. intros b Hb. rewrite B2, B1 in Hb. pose proof (F13 b Hb). rewrite app_length. cbn. lia.
      + apply (fr_is_row h don _ _ _ obj G2); auto.
        * rewrite lookup_app_l by (rewrite app_length; cbn; lia). apply list_lookup_middle; auto.
        * intros b Hb. rewrite B2, B1 in Hb. pose proof (F13 b Hb). lia.
      + rewrite app_length. cbn. lia.
    - destruct (Hadd s defs F) as (s1 & n1 & -> & G1 & -> & B1 & O1).
      exists s1, [r]. eexists. split; [reflexivity|]. split; auto. split; [congruence|].
      assert (Eo : s_obj s1 = new_obj) by (rewrite O1; apply F8). rewrite Eo. cbn [ob_gen ob_discard ob_bounded ob_active ob_var ob_bound_var new_obj].
      split; auto. split; auto. split; auto. split; [congruence|].
      intros _. split; auto. split; [|congruence].
      apply (fr_is_row h don _ _ _ obj G1); auto; [apply list_lookup_middle; auto|]. intros b Hb. rewrite B1 in Hb. pose proof (F13 b Hb). lia.
  Qed.

  (** ** Queue and registration of bounds *)
  Lemma fr_shape h don defs s : fr h don defs s -> shape s.
  Proof.
    intros [F1 F2 F3 F4 F5 F6 F7 (Fa & Fb & Fc & Fd & Fe & _) F9 F10 F11 F12 F13]. constructor; auto.
    - intros x Hx. unfold ridx, idx. rewrite !F1. cbn. auto.
    - intros x Hx. unfold ridx, idx. rewrite !F1. cbn. auto.
    - intros i j. rewrite F6. destruct (defs !! i) as [r|] eqn:E; [|congruence]. intros Hne. pose proof (lookup_lt_Some _ _ _ E). split; [lia|].
      destruct (decide (j ∈ map fst r)) as [Hin|Hin]; [|rewrite cget_notin in Hne; congruence].
      apply elem_of_map_fst in Hin as (c & Hin). rewrite F3. eapply F7; eauto.
    - rewrite Fd. intros x Hx. inversion Hx.
    - rewrite Fe. intros x Hx. inversion Hx.
    - rewrite Fb. intros x Hx. inversion Hx.
    - rewrite Fa. intros x Hx. inversion Hx.
    - intros b Hb. pose proof (F13 b Hb). lia.
    - intros x b Hb. rewrite F1 in Hb. inversion Hb.
  Qed.

  Lemma prep_enqueue_ok (o : options) is : forall s, shape s -> Qinv s -> (forall i, i ∈ is -> i < s_nb s) ->
    exists s', prep_enqueue o is s = Ok s' /\ qonly s s' /\ shape s' /\ Qinv s'.
  Proof.
    induction is as [|i is IH]; intros s Sh Q Hi; cbn [prep_enqueue].
    - exists s. split; auto. split; [apply qonly_refl|]. auto.
    - destruct (enqueue_ok o i s Sh) as (s1 & -> & Q1 & C1 & P1 & _ & _ & I1); [apply Hi; left|]. cbn [mbind res_bind].
      assert (Sh1 : shape s1).
      { apply (qonly_shape s); auto.
        - intros x Hx. destruct (C1 x Hx); auto. apply (sh_conf _ Sh); auto.
        - intros k Hk. destruct (P1 k Hk) as [| ->]; [apply (sh_pq _ Sh); auto|]. apply Hi. left. }
      destruct (IH s1 Sh1) as (s2 & -> & Q2 & Sh2 & I2); [apply I1; auto| |].
      { intros k Hk. rewrite (stat_nb s s1) by apply Q1. apply Hi. right. auto. }
      exists s2. split; auto. split; auto. eapply qonly_trans; eauto.
  Qed.

  (** only the registered bounds change *)
  Lemma prep_register_ok bs : forall s, (forall b, b ∈ bs -> b_var b < nv s) ->
    exists s', prep_register bs s = Ok s' /\ stat s' = stat s /\ s_tab s' = s_tab s /\ s_atrail s' = s_atrail s /\ s_btrail s' = s_btrail s /\
      s_conf s' = s_conf s /\ s_pq s' = s_pq s /\ s_clause s' = s_clause s /\ s_pivots s' = s_pivots s /\ s_props s' = s_props s /\ perm_same s s' /\ val_same s s' /\
      (forall x, lo s' x = lo s x /\ up s' x = up s x /\ qd s' x = qd s x) /\
      (forall x, v_bounds (vr s' x) = v_bounds (vr s x) ++ List.filter (fun b => b_var b =? x) bs).
  Proof.
    induction bs as [|b bs IH]; intros s Hb; cbn [prep_register].
    - exists s. repeat (split; auto). intros x. cbn. rewrite app_nil_r. auto.
    - assert (Hv : b_var b < nv s) by (apply Hb; left). rewrite at_vr by auto. cbn [mbind res_bind].
      set (s1 := upd_var (b_var b) _ s).
      destruct (IH s1) as (s2 & -> & A1 & A2 & A3 & A4 & A5 & A6 & A7 & A7' & A7'' & A8 & A9 & A10 & A11).
      { intros c Hc. unfold s1. rewrite nv_upd. apply Hb. right. auto. }
      assert (V1 : forall x, vr s1 x = if x =? b_var b then vset_bounds (v_bounds (vr s (b_var b)) ++ [b]) (vr s (b_var b)) else vr s x).
      { intros x. unfold s1. rewrite vr_upd; auto. }
      exists s2. split; auto. split; [rewrite A1; apply stat_upd|]. split; [rewrite A2; reflexivity|]. split; [rewrite A3; reflexivity|].
      split; [rewrite A4; reflexivity|]. split; [rewrite A5; reflexivity|]. split; [rewrite A6; reflexivity|]. split; [rewrite A7; reflexivity|].
      split; [rewrite A7'; reflexivity|]. split; [rewrite A7''; reflexivity|].
      split; [|split; [|split]].
      + intros y. destruct (A8 y) as [-> ->]. unfold idx, ridx. rewrite V1. destruct (Nat.eqb_spec y (b_var b)) as [->|]; auto.
      + intros y. destruct (A9 y) as [-> ->]. unfold val, lvl. rewrite V1. destruct (Nat.eqb_spec y (b_var b)) as [->|]; auto.
      + intros y. destruct (A10 y) as (-> & -> & ->). unfold lo, up, qd. rewrite V1. destruct (Nat.eqb_spec y (b_var b)) as [->|]; auto.
      + intros y. rewrite A11, V1. cbn [List.filter]. rewrite (Nat.eqb_sym (b_var b) y). destruct (Nat.eqb_spec y (b_var b)) as [->|]; auto.
        cbn [v_bounds vset_bounds]. rewrite <- app_assoc. auto.
  Qed.

  (** ** The binary clauses *)
  Definition must_clash (h : host) (ba bb : bound V) : Prop :=
    (b_lit ba <> - b_lit bb)%Z /\ (forall log, h_false h log (b_lit bb) = false) /\ bconflicts ba bb = true.

  Lemma static_inner_ok h ba bs : forall log, exists log' ok, static_inner h ba bs log = (log', ok) /\ exists new, log' = log ++ new /\
    (forall c, c ∈ new -> exists bb, bb ∈ bs /\ c = [(- b_lit ba)%Z; (- b_lit bb)%Z] /\ (b_lit ba <> - b_lit bb)%Z /\ bconflicts ba bb = true) /\
    (ok = true -> forall bb, bb ∈ bs -> must_clash h ba bb -> [(- b_lit ba)%Z; (- b_lit bb)%Z] ∈ new).
  Proof.
    induction bs as [|bb bs IH]; intros log; cbn [static_inner].
    - exists log, true. split; auto. exists []. rewrite app_nil_r. split; auto. split; [intros c Hc; inversion Hc|intros _ bb Hb; inversion Hb].
    - destruct (negb (b_lit ba =? - b_lit bb)%Z && negb (h_false h log (b_lit bb)) && bconflicts ba bb) eqn:E.
      + rewrite !andb_true_iff, !negb_true_iff, Z.eqb_neq in E. destruct E as [[E1 E2] E3].
        destruct (h_reply h (log ++ [[(- b_lit ba)%Z; (- b_lit bb)%Z]])).
        * destruct (IH (log ++ [[(- b_lit ba)%Z; (- b_lit bb)%Z]])) as (log' & ok & -> & new & -> & N & M).
          eexists _, _. split; [reflexivity|]. exists ([[(- b_lit ba)%Z; (- b_lit bb)%Z]] ++ new). rewrite app_assoc. split; auto. split.
          -- intros c Hc. apply elem_of_app in Hc as [Hc|Hc].
             ++ apply elem_of_list_singleton in Hc as ->. exists bb. split; [left|auto].
             ++ destruct (N c Hc) as (b' & ? & ?). exists b'. split; [right; auto|auto].
          -- intros Ek b' Hb' Hm. apply elem_of_app. apply elem_of_cons in Hb' as [->|Hb']; [left; left|right; auto].
        * eexists _, _. split; [reflexivity|]. eexists. split; [reflexivity|]. split; [|discriminate].
          intros c Hc. apply elem_of_list_singleton in Hc as ->. exists bb. split; [left|auto].
      + destruct (IH log) as (log' & ok & -> & new & -> & N & M). eexists _, _. split; [reflexivity|]. exists new. split; auto. split.
        * intros c Hc. destruct (N c Hc) as (b' & ? & ?). exists b'. split; [right; auto|auto].
        * intros Ek b' Hb' Hm. apply elem_of_cons in Hb' as [->|Hb']; [|auto]. exfalso. destruct Hm as (M1 & M2 & M3).
          rewrite M2, M3, (proj2 (Z.eqb_neq _ _) M1) in E. discriminate.
  Qed.
  Lemma static_outer_ok h bs : forall log, exists log' ok, static_outer h bs log = (log', ok) /\ exists new, log' = log ++ new /\
    (forall c, c ∈ new -> exists ba bb, ba ∈ bs /\ bb ∈ bs /\ c = [(- b_lit ba)%Z; (- b_lit bb)%Z] /\ (b_lit ba <> - b_lit bb)%Z /\ bconflicts ba bb = true) /\
    (ok = true -> forall i j ba bb, i < j -> bs !! i = Some ba -> bs !! j = Some bb -> must_clash h ba bb -> [(- b_lit ba)%Z; (- b_lit bb)%Z] ∈ new).
  Proof.
    induction bs as [|ba bs IH]; intros log; cbn [static_outer].
    - exists log, true. split; auto. exists []. rewrite app_nil_r. split; auto. split; [intros c Hc; inversion Hc|intros _ i j ba bb _ Hb; discriminate].
    - destruct (static_inner_ok h ba bs log) as (log1 & ok1 & -> & n1 & -> & N1 & M1). destruct ok1.
      + destruct (IH (log ++ n1)) as (log2 & ok2 & -> & n2 & -> & N2 & M2). eexists _, _. split; [reflexivity|]. exists (n1 ++ n2). rewrite app_assoc. split; auto. split.
        * intros c Hc. apply elem_of_app in Hc as [Hc|Hc].
          -- destruct (N1 c Hc) as (bb & ? & ?). exists ba, bb. split; [left|]. split; [right; auto|auto].
          -- destruct (N2 c Hc) as (a' & b' & ? & ? & ?). exists a', b'. split; [right; auto|]. split; [right; auto|auto].
        * intros Ek i j a' b' Hij Ei Ej Hm. apply elem_of_app. destruct j as [|j]; [lia|]. destruct i as [|i]; cbn in Ei, Ej.
          -- injection Ei as ->. left. apply M1; auto. apply elem_of_list_lookup. eauto.
          -- right. apply (M2 Ek i j); auto. lia.
      + eexists _, _. split; [reflexivity|]. exists n1. split; auto. split; [|discriminate].
        intros c Hc. destruct (N1 c Hc) as (bb & ? & ?). exists ba, bb. split; [left|]. split; [right; auto|auto].
  Qed.
  Lemma static_vars_ok h (vs : list (var V)) : forall log, exists log' ok, static_vars h vs log = (log', ok) /\ exists new, log' = log ++ new /\
    (forall c, c ∈ new -> exists v ba bb, v ∈ vs /\ ba ∈ v_bounds v /\ bb ∈ v_bounds v /\ c = [(- b_lit ba)%Z; (- b_lit bb)%Z] /\ (b_lit ba <> - b_lit bb)%Z /\ bconflicts ba bb = true) /\
    (ok = true -> forall v i j ba bb, v ∈ vs -> i < j -> v_bounds v !! i = Some ba -> v_bounds v !! j = Some bb -> must_clash h ba bb -> [(- b_lit ba)%Z; (- b_lit bb)%Z] ∈ new).
  Proof.
    induction vs as [|v vs IH]; intros log; cbn [static_vars].
    - exists log, true. split; auto. exists []. rewrite app_nil_r. split; auto. split; [intros c Hc; inversion Hc|intros _ v i j ba bb Hv; inversion Hv].
    - destruct (static_outer_ok h (v_bounds v) log) as (log1 & ok1 & -> & n1 & -> & N1 & M1). destruct ok1.
      + destruct (IH (log ++ n1)) as (log2 & ok2 & -> & n2 & -> & N2 & M2). eexists _, _. split; [reflexivity|]. exists (n1 ++ n2). rewrite app_assoc. split; auto. split.
        * intros c Hc. apply elem_of_app in Hc as [Hc|Hc].
          -- destruct (N1 c Hc) as (ba & bb & ? & ? & ?). exists v, ba, bb. split; [left|auto].
          -- destruct (N2 c Hc) as (v' & ba & bb & ? & ?). exists v', ba, bb. split; [right; auto|auto].
        * intros Ek v' i j a' b' Hv' Hij Ei Ej Hm. apply elem_of_app. apply elem_of_cons in Hv' as [->|Hv']; [left; eauto|right; eauto].
      + eexists _, _. split; [reflexivity|]. exists n1. split; auto. split; [|discriminate].
        intros c Hc. destruct (N1 c Hc) as (ba & bb & ? & ? & ?). exists v, ba, bb. split; [left|auto].
  Qed.

  (** ** Prepare as a whole *)
  Lemma bloose_slack q q' b b' co co' : co <> 0%Qc -> co' <> 0%Qc ->
    srel (V := V) (q_rel q) /\ srel (V := V) (invert (q_rel q)) -> srel (V := V) (q_rel q') /\ srel (V := V) (invert (q_rel q')) ->
    b_lit b = q_lit q -> b_lit b' = q_lit q' ->
    b_val b = vbound (q_rhs q / co)%Qc (if vltb co 0%Qc then invert (q_rel q) else q_rel q) ->
    b_rel b = bound_rel (if vltb co 0%Qc then invert (q_rel q) else q_rel q) ->
    b_val b' = vbound (q_rhs q' / co')%Qc (if vltb co' 0%Qc then invert (q_rel q') else q_rel q') ->
    b_rel b' = bound_rel (if vltb co' 0%Qc then invert (q_rel q') else q_rel q') ->
    b_rel b = BEq -> bloose b' (b_val b) ->
    q_rel q = Req /\ q_rel q' <> Req /\ q_lit q = b_lit b /\ q_lit q' = b_lit b' /\ slack q q' co co'.
  Proof.
    intros Hc Hc' [S1 S2] [S1' S2'] El El' Ev Er Ev' Er' Eq Hl.
    assert (Hr : q_rel q = Req) by (rewrite Eq in Er; destruct (vltb co 0%Qc), (q_rel q); auto; discriminate).
    split; auto.
    assert (Eb : b_val b = vofq (q_rhs q / co)%Qc).
    { rewrite Ev, Hr. cbn [invert]. apply v_ext; rewrite vemb_ofq; cbn [fst snd].
      - destruct (vltb co 0%Qc); apply vemb_bound1.
      - destruct (vltb co 0%Qc); apply vemb_bound2; auto. }
    set (r' := if vltb co' 0%Qc then invert (q_rel q') else q_rel q') in *.
    assert (Sr : srel (V := V) r') by (subst r'; destruct (vltb co' 0%Qc); auto).
    assert (Hne : r' <> Req) by (intros E; rewrite E in Er'; unfold bloose in Hl; rewrite Er' in Hl; exact Hl).
    split; [intros E; apply Hne; subst r'; rewrite E; destruct (vltb co' 0%Qc); auto|]. split; auto. split; auto.
    assert (Hh : relv r' (b_val b) (vofq (q_rhs q' / co')%Qc)).
    { apply bound_relv; auto. unfold bloose in Hl. rewrite <- Ev', <- Er'. unfold bs_rel. destruct (b_rel b'); auto using vlt_le. contradiction. }
    split.
    - subst r'. apply relv_scale in Hh; auto. rewrite Eb in Hh. apply (relv_ofq (V := V)).
      replace (vofq (co' * (q_rhs q / co))%Qc : V) with (vscale co' (vofq (q_rhs q / co)%Qc : V)); auto.
      apply v_ext; vpush; ring.
    - intros E. assert (Ex : (q_rhs q' / co')%Qc = (q_rhs q / co)%Qc) by (rewrite <- E; field; auto).
      rewrite Eb in *. rewrite Ex in *. apply (relv_ofq (V := V)) in Hh.
      unfold bloose in Hl. rewrite Er', Ev' in Hl. clearbody r'. pose proof (Sr (q_rhs q / co)%Qc) as E2. pose proof (vemb_bound1 (q_rhs q / co)%Qc r' : (vemb (vbound (q_rhs q / co)%Qc r' : V)).1 = _) as E1.
      destruct r'; cbn [bound_rel relq] in *; try congruence; try (revert Hh; apply Qclt_not_eq; fail).
      all: try (rewrite vlt_emb, E1, E2, vemb_ofq in Hl; cbn in Hl; destruct Hl as [Hl|[_ Hl]]; qclra).
  Qed.

  Record prepared (h : host) (o : options) (qs : list (ineq Sym)) (obj : list (Qc * Sym)) s : Prop := {
    pd_live : forall keep, Live keep s [] s;
    pd_nn : s_nn s = length syms;
    pd_val : forall x, val s x = vzero;
    pd_snd : forall b, b ∈ s_bounds s -> exists q, q ∈ qs /\ q_lhs q <> [] /\ repr s q b;
    pd_cpl : forall q, q ∈ qs -> q_lhs q <> [] -> (forall log, h_false h log (q_lit q) = false) -> exists b, b ∈ s_bounds s /\ repr s q b;
    pd_slack : forall b b', b ∈ s_bounds s -> b' ∈ s_bounds s -> b_var b' = b_var b -> b_rel b = BEq -> bloose b' (b_val b) ->
      exists q q' c c' x, q ∈ qs /\ q' ∈ qs /\ q_lhs q = [(c, x)] /\ q_lhs q' = [(c', x)] /\ q_rel q = Req /\ q_rel q' <> Req /\
        q_lit q = b_lit b /\ q_lit q' = b_lit b' /\ slack q q' c c';
    pd_ext : forall A : Sym -> V, exists a, rows s a /\ forall x, is_Some (find x) -> rd a x = A x;
    pd_new : ob_gen (s_obj s) = 0 /\ ob_discard (s_obj s) = false /\ ob_bounded (s_obj s) = true;
    pd_obj0 : obj = [] -> ob_active (s_obj s) = false;
    pd_obj1 : obj <> [] -> ob_active (s_obj s) = true /\ is_row s (ob_var (s_obj s)) obj /\
         (o_global o <> None -> is_row s (ob_bound_var (s_obj s)) obj /\ ob_bound_var (s_obj s) <> ob_var (s_obj s));
  }.

  Lemma rowc_single ts j co : okterms ts -> rowc ts = [(j, co)] -> exists x, ts = [(co, x)] /\ find x = Some j.
  Proof.
    intros Ho E. destruct ts as [|[c x] [|[c2 x2] ts]]; try discriminate. cbn in E. injection E as E1 E2. subst. exists x. split; auto.
    destruct (proj2 Ho co x) as [[k Ek] _]; [left|]. rewrite Ek. auto.
  Qed.

  Lemma rows_like s s' a : nv s' = nv s -> s_nn s' = s_nn s -> perm_same s s' -> s_tab s' = s_tab s -> rows s' a <-> rows s a.
  Proof.
    intros E1 E2 E3 E4. unfold rows, rowval. rewrite E1.
    assert (EB : forall x, Bs s' x = Bs s x) by (intros x; unfold Bs; destruct (E3 x) as [_ ->]; rewrite E2; auto).
    assert (ET : forall x y, Ts s' x y = Ts s x y) by (intros x y; unfold Ts; destruct (E3 x) as [_ ->], (E3 y) as [_ ->]; rewrite E2, E4; auto).
    assert (EV : forall y : nat, vsum (nv s) (fun k => if Bs s' k then vzero else vscale (Ts s' y k) (a k)) = vsum (nv s) (fun k => if Bs s k then vzero else vscale (Ts s y k) (a k))).
    { intros y. apply vsum_ext. intros k _. rewrite EB, ET. auto. }
    split; intros Hr y Hy HB.
    - rewrite <- EV. apply Hr; auto. rewrite EB; auto.
    - rewrite EV. apply Hr; auto. rewrite <- EB; auto.
  Qed.

  Lemma holds_bsat s q b a (A : Sym -> Qc) : repr s q b -> rows s a -> okterms (q_lhs q) ->
    (forall x, is_Some (find x) -> rd a x = vofq (A x)) -> holds A q -> bsat a b.
  Proof.
    intros (_ & _ & R & _) Hr Ho Ha Hh. apply R; auto.
    - left. intros x. destruct (find x) as [k|] eqn:E; [rewrite Ha by eauto; apply std_ofq|]. unfold rd. rewrite E. apply std_zero.
    - apply holdsV_ofq in Hh. unfold holdsV in *. rewrite (linV_ext (rd a) (fun x => vofq (A x))); [exact Hh|].
      intros c x Hin. apply Ha. apply (proj2 Ho c x); auto.
  Qed.

  (** two constraints on one variable that exclude each other *)
  Definition static_complete (h : host) (qs : list (ineq Sym)) (new : list (list Z)) : Prop :=
    forall qa qb ca cb x, qa ∈ qs -> qb ∈ qs -> q_lhs qa = [(ca, x)] -> q_lhs qb = [(cb, x)] ->
      (forall log, h_false h log (q_lit qa) = false) -> (forall log, h_false h log (q_lit qb) = false) ->
      (q_lit qa <> - q_lit qb)%Z -> ~ (exists A : Sym -> V, holdsV A qa /\ holdsV A qb) ->
      [(- q_lit qa)%Z; (- q_lit qb)%Z] ∈ new \/ [(- q_lit qb)%Z; (- q_lit qa)%Z] ∈ new.

  Theorem prepare_ok h (o : options) shuf qs obj master log :
    (forall l, shuf l ≡ₚ l) -> (forall q, q ∈ qs -> okterms (q_lhs q)) -> okterms obj ->
    (forall q, q ∈ qs -> srel (V := V) (q_rel q) /\ srel (V := V) (invert (q_rel q))) ->
    exists s log' ok, prepare h o shuf (length syms) find qs obj master log = Ok (s, log', ok) /\
      (ok = true -> prepared h o qs obj s) /\
      (exists new, log' = log ++ new /\
        (forall c, c ∈ new -> unit_clause qs c \/ (o_pconf o = true /\ exists qa qb, qa ∈ qs /\ qb ∈ qs /\ c = [(- q_lit qa)%Z; (- q_lit qb)%Z] /\ clause_sound qs c)) /\
        (ok = true -> master = true -> forall q, q ∈ qs -> q_lhs q = [] -> (forall log, h_false h log (q_lit q) = false) ->
           empty_row_clause (q_rel q) (q_rhs q) = true -> [(- q_lit q)%Z] ∈ new) /\
        (ok = true -> master = true -> o_pconf o = true -> static_complete h qs new)).
  Proof.
    intros Hsh Ho Hobj Hrel. unfold prepare.
    destruct (prep_ineqs_ok h master qs (prep_init (length syms)) log [] [] (fr_init h) Ho) as (s1 & log1 & ok1 & -> & F1 & (n1 & -> & N1 & M1)).
    cbn [mbind res_bind]. destruct ok1; cbn [negb].
    2:{ eexists _, _, _. split; [reflexivity|]. split; [discriminate|]. exists n1. split; [reflexivity|]. split; [|split; discriminate]. intros c Hc. left. auto. }
    destruct (F1 eq_refl) as (defs1 & F1'). cbn [app] in F1'. clear F1.
    destruct (prep_objective_ok h o obj s1 qs defs1 F1' Hobj) as (s2 & defs2 & ob & -> & F2 & B2 & O1 & O2 & O3 & O4 & O5).
    cbn [mbind res_bind]. set (defs := defs1 ++ defs2) in *.
    pose proof (fr_shape _ _ _ _ F2) as Sh2. pose proof F2 as [G1 G2 G3 G4 G5 G6 G7 (Ga & Gb & Gc & Gd & Ge & _) G9 G10 G11 G12 G13].
    assert (Sh2' : shape (set_obj ob s2)) by (destruct Sh2; constructor; auto).
    assert (Q2 : Qinv (set_obj ob s2)).
    { split; [|cbn; rewrite Gd; constructor]. intros x. change (qd (set_obj ob s2) x) with (qd s2 x). unfold qd. rewrite G1. discriminate. }
    destruct (prep_enqueue_ok o (seq 0 (s_nb (set_obj ob s2))) (set_obj ob s2) Sh2' Q2) as (s3 & -> & Q3 & Sh3 & I3).
    { intros i Hi. apply elem_of_seq in Hi. lia. }
    cbn [mbind res_bind]. destruct Q3 as (A1 & A2 & A3 & A4 & A5 & A6 & A7 & A8).
    assert (Hb3 : s_bounds s3 = s_bounds s2) by (rewrite (stat_bounds _ _ A1); reflexivity).
    assert (Hn3 : nv s3 = nv s2) by (rewrite (stat_nv _ _ A1); reflexivity).
    set (s3' := set_bounds (shuf (s_bounds s3)) s3).
    assert (Hin : forall b, b ∈ shuf (s_bounds s3) <-> b ∈ s_bounds s2) by (intros b; rewrite Hsh, Hb3; tauto).
    destruct (prep_register_ok (s_bounds s3') s3') as (s4 & -> & C1 & C2 & C3 & C4 & C5 & C6 & C7 & _ & _ & C8 & C9 & C10 & C11).
    { intros b Hb. change (nv s3') with (nv s3). cbn in Hb. apply Hin in Hb. rewrite Hn3. apply (sh_bv _ Sh2); auto. }
    cbn [mbind res_bind].
    assert (Hvr3 : forall x, v_bounds (vr s3' x) = []).
    { intros x. change (vr s3' x) with (vr s3 x). destruct (A7 x) as (_ & _ & ->). change (vr (set_obj ob s2) x) with (vr s2 x). rewrite G1. auto. }
    assert (Hb4 : s_bounds s4 = shuf (s_bounds s3)) by (rewrite (stat_bounds _ _ C1); reflexivity).
    assert (Hn4 : nv s4 = nv s2) by (rewrite (stat_nv _ _ C1); exact Hn3).
    assert (Hnn4 : s_nn s4 = s_nn s2) by (rewrite (stat_nn _ _ C1); exact (stat_nn _ _ A1)).
    assert (Hnb4 : s_nb s4 = s_nb s2) by (rewrite (stat_nb _ _ C1); exact (stat_nb _ _ A1)).
    assert (Hob4 : s_obj s4 = ob) by (rewrite (stat_obj _ _ C1); exact (stat_obj _ _ A1)).
    assert (Hof4 : s_offs s4 = []) by (rewrite (stat_offs _ _ C1), <- Gc; exact (stat_offs _ _ A1)).
    assert (P4 : perm_same s2 s4).
    { intros y. destruct (C8 y) as [-> ->]. exact (A6 y). }
    assert (T4 : s_tab s4 = s_tab s2) by (rewrite C2; exact A2).
    assert (V4 : forall y, val s4 y = vzero /\ lvl s4 y = 0).
    { intros y. destruct (C9 y) as [-> ->]. change (val s3' y) with (val s3 y). change (lvl s3' y) with (lvl s3 y). destruct (A8 y) as [-> ->].
      change (val (set_obj ob s2) y) with (val s2 y). change (lvl (set_obj ob s2) y) with (lvl s2 y). unfold val, lvl. rewrite G1. auto. }
    assert (L4 : forall y, lo s4 y = None /\ up s4 y = None).
    { intros y. destruct (C10 y) as (-> & -> & _). change (lo s3' y) with (lo s3 y). change (up s3' y) with (up s3 y). destruct (A7 y) as (-> & -> & _).
      change (lo (set_obj ob s2) y) with (lo s2 y). change (up (set_obj ob s2) y) with (up s2 y). unfold lo, up. rewrite G1. auto. }
    assert (R4 : forall a, rows s4 a <-> rows s2 a) by (intros a; apply rows_like; auto).
    assert (VB : forall x b, b ∈ v_bounds (vr s4 x) <-> b ∈ s_bounds s4 /\ b_var b = x).
    { intros x b. rewrite C11, Hvr3. cbn [app]. rewrite elem_of_list_In, filter_In, <- elem_of_list_In, Nat.eqb_eq, Hb4. reflexivity. }
    assert (Sh4 : shape s4).
    { constructor; auto.
      - lia.
      - rewrite T4. auto.
      - intros x Hx. destruct (P4 x) as [_ ->]. destruct (P4 (ridx s2 x)) as [-> _]. rewrite Hn4 in *. apply (sh_ri _ Sh2); auto.
      - intros x Hx. destruct (P4 x) as [-> _]. destruct (P4 (idx s2 x)) as [_ ->]. rewrite Hn4 in *. apply (sh_ir _ Sh2); auto.
      - intros i j. rewrite T4, Hnn4, Hnb4. apply (sh_nz _ Sh2).
      - intros x. rewrite C5, (stat_nv _ _ C1). apply (sh_conf _ Sh3).
      - intros x. rewrite C6, (stat_nb _ _ C1). apply (sh_pq _ Sh3).
      - intros x. rewrite C3. change (s_atrail s3') with (s_atrail s3). rewrite A3. cbn. rewrite Gb. intros Hx. inversion Hx.
      - intros x. rewrite C4. change (s_btrail s3') with (s_btrail s3). rewrite A4. cbn. rewrite Ga. intros Hx. inversion Hx.
      - intros b. rewrite Hb4, Hin, Hn4. apply (sh_bv _ Sh2).
      - intros x b. apply VB. }
    assert (Hl : length (s_bounds s4) = length (s_bounds s2)) by (rewrite Hb4, Hsh, Hb3; auto).
    assert (BS : bstat (s_bounds s4)).
    { constructor; intros b.
      - rewrite Hl. rewrite Hb4, Hin. intros Hb. apply elem_of_list_lookup in Hb as (i & Hb). rewrite (G9 i b Hb). apply lookup_lt_Some in Hb. auto.
      - intros b'. rewrite Hb4, !Hin. intros Hb Hb' E. apply elem_of_list_lookup in Hb as (i & Hb). apply elem_of_list_lookup in Hb' as (j & Hb').
        rewrite (G9 _ _ Hb), (G9 _ _ Hb') in E. subst. congruence. }
    assert (Pd : prepared h o qs obj s4).
    { assert (Rp : forall q b, q ∈ qs -> repr0 defs q b -> repr s4 q b).
      { intros q b Hq R0. destruct (Hrel q Hq) as [S1 S2]. destruct (fr_repr h qs defs s2 q b F2 (Ho q Hq) S1 S2 R0) as (X1 & X2 & X3 & X4).
        split; auto. split; [|split]; intros a Ha; [apply X2|apply X3|apply X4]; apply R4; auto. }
      assert (Ri : forall z, is_row s2 z obj -> is_row s4 z obj).
      { intros z (X1 & X2 & X3 & X4). split; [lia|]. split; [unfold Bs in *; destruct (P4 z) as [_ ->]; rewrite Hnn4; auto|]. split.
        - intros b. rewrite Hb4, Hin. apply X3.
        - intros a Ha. apply X4, R4; auto. }
      constructor.
      - intros keep. constructor; [constructor; auto|..].
        + constructor; auto.
          * intros x b. destruct (L4 x) as [-> ->]. split; discriminate.
          * intros x l u. destruct (L4 x) as [-> _]. discriminate.
          * intros b Hb HB. destruct (V4 b) as [-> _]. unfold rowval. symmetry. apply vsum_zero. intros k _. destruct (Bs s4 k); auto.
            destruct (V4 k) as [-> _]. apply vscale_zero.
          * intros x Hx _. unfold inb, within, lov, upv. destruct (L4 x) as [-> ->]. split; discriminate.
          * destruct I3 as [Ia Ib]. split; [split|].
            -- intros x. destruct (C10 x) as (_ & _ & ->). rewrite C5. apply Ia.
            -- rewrite C5. exact Ib.
            -- intros x Hx _. unfold conf_at, has_conflict, viol_lower, viol_upper. destruct (L4 x) as [E1 E2]. unfold lo, up in E1, E2. rewrite E1, E2. discriminate.
        + rewrite Hof4, C3, C4. change (s_atrail s3') with (s_atrail s3). change (s_btrail s3') with (s_btrail s3).
          replace (s_btrail s3) with (@nil (nat * brel * option (bound V))) by (symmetry; rewrite A4; exact Ga).
          replace (s_atrail s3) with (@nil (nat * nat * V)) by (symmetry; rewrite A3; exact Gb). constructor. intros x. apply V4.
        + intros m x b E. exfalso. destruct (L4 x) as [E1 E2]. destruct m; cbn in E; congruence.
        + intros m x b E. exfalso. destruct (L4 x) as [E1 E2]. destruct m; cbn in E; congruence.
        + intros x Hx. unfold inb, within, lov, upv. destruct (L4 x) as [-> ->]. split; discriminate.
        + intros b _ Hb. inversion Hb.
      - lia.
      - intros x. apply V4.
      - intros b. rewrite Hb4, Hin. intros Hb. destruct (G10 b Hb) as (q & Hq & R0). exists q. split; auto. split; [apply R0|auto].
      - intros q Hq Hne Hf. destruct (G11 q Hq Hne Hf) as (b & Hb & R0). exists b. split; [rewrite Hb4, Hin; auto|auto].
      - intros b b'. rewrite Hb4, !Hin. intros Hb Hb' Ev Er Hlo. destruct (G10 b Hb) as (q & Hq & R0 & Rn & Hs). destruct (G10 b' Hb') as (q' & Hq' & R0' & Rn' & Hs').
        destruct Hs as [(j & co & E1 & E2 & E3 & E4)|(i & E0 & E1 & E2 & E3 & E4)], Hs' as [(j' & co' & E1' & E2' & E3' & E4')|(i' & E0' & E1' & E2' & E3' & E4')].
        + apply rowc_single in E1 as (x & Ex & Fx); auto. apply rowc_single in E1' as (x' & Ex' & Fx'); auto.
          assert (x' = x) as -> by (apply (find_inj x' x j'); auto; congruence).
          assert (Hc : co <> 0%Qc) by (apply (proj2 (Ho q Hq) co x); rewrite Ex; left).
          assert (Hc' : co' <> 0%Qc) by (apply (proj2 (Ho q' Hq') co' x); rewrite Ex'; left).
          exists q, q', co, co', x. do 4 (split; auto). eapply bloose_slack; eauto; apply Hrel; auto.
        + exfalso. apply rowc_single in E1 as (x & Ex & Fx); auto. apply find_lt in Fx. lia.
        + exfalso. apply rowc_single in E1' as (x & Ex & Fx); auto. apply find_lt in Fx. lia.
        + exfalso. rewrite <- (G12 b b') in Hlo by (auto; lia). unfold bloose in Hlo. rewrite Er in Hlo. auto.
      - intros A. destruct (fr_ext h qs defs s2 A F2) as [X1 X2]. exists (ext defs A). split; auto. apply R4; auto.
      - rewrite Hob4. auto.
      - rewrite Hob4. auto.
      - rewrite Hob4. intros Hne. destruct (O5 Hne) as (X1 & X2 & X3). split; auto. split; auto. intros Hg. destruct (X3 Hg). auto. }
    destruct (o_pconf o && master) eqn:Epc.
    - destruct (static_vars_ok h (s_vars s4) (log ++ n1)) as (log2 & ok2 & -> & n2 & -> & N2 & M2).
      eexists _, _, _. split; [reflexivity|]. split; auto. exists (n1 ++ n2). rewrite app_assoc. split; auto. split.
      + intros c Hc. apply elem_of_app in Hc as [Hc|Hc]; [left; auto|]. right. apply andb_true_iff in Epc as [Epc _]. split; auto.
        destruct (N2 c Hc) as (v & ba & bb & Hv & Hba & Hbb & -> & Hne & Hcf).
        apply elem_of_list_lookup in Hv as (x & Hx). assert (Ev : v = vr s4 x) by (unfold vr; rewrite Hx; auto). subst v.
        apply VB in Hba as [Ba Va], Hbb as [Bb Vb].
        destruct (pd_snd _ _ _ _ _ Pd ba Ba) as (qa & Hqa & Hna & Ra). destruct (pd_snd _ _ _ _ _ Pd bb Bb) as (qb & Hqb & Hnb & Rb).
        exists qa, qb. split; auto. split; auto. split; [rewrite (proj1 Ra), (proj1 Rb); auto|].
        exists [qa; qb]. split; [cbn; rewrite (proj1 Ra), (proj1 Rb); auto|]. split.
        * intros q Hq. rewrite !elem_of_cons, elem_of_nil in Hq. destruct Hq as [->|[->|[]]]; auto.
        * intros (A & HA). destruct (pd_ext _ _ _ _ _ Pd (fun x => vofq (A x))) as (a & Hr & Ha).
          assert (S1 : bsat a ba) by (eapply holds_bsat; eauto; apply HA; left).
          assert (S2 : bsat a bb) by (eapply holds_bsat; eauto; apply HA; right; left).
          apply bconflicts_spec in Hcf. apply Hcf. exists (a x). unfold bsat in S1, S2. rewrite Va in S1. rewrite Vb in S2. auto.
      + split; [intros Ek Em q Hq El Hf He; apply elem_of_app; left; auto|].
        intros Ek _ _ qa qb ca cb x Hqa Hqb Ela Elb Hfa Hfb Hlit Hun.
        assert (Bd : forall q c, q ∈ qs -> q_lhs q = [(c, x)] -> (forall log, h_false h log (q_lit q) = false) ->
                  exists b j, b ∈ v_bounds (vr s4 j) /\ j < nv s4 /\ find x = Some j /\ b_lit b = q_lit q /\
                    forall v, bs_rel (b_rel b) v (b_val b) -> holdsV (fun _ => v) q).
        { intros q c Hq El Hf. destruct (G11 q Hq) as (b & Hb & R0); [rewrite El; discriminate|auto|]. destruct R0 as (R1 & _ & R2).
          assert (Hc : c <> 0%Qc) by (apply (proj2 (Ho q Hq) c x); rewrite El; left).
          destruct R2 as [(j & co & Er & Ej & Ev & Erel)|(i & Hlen & _)]; [|rewrite El in Hlen; cbn in Hlen; lia].
          destruct (rowc_single _ _ _ (Ho q Hq) Er) as (x' & Ex & Fx). rewrite El in Ex. injection Ex as <- <-.
          exists b, j. split; [apply VB; rewrite Hb4, Hin; auto|]. split; [|split; auto; split; auto].
          - rewrite Hn4. rewrite <- Ej. apply (sh_bv _ Sh2); auto.
          - intros v. rewrite Ev, Erel. intros Hv. destruct (Hrel q Hq) as [S1 S2].
            apply bound_relv in Hv; [|destruct (vltb c 0%Qc); auto]. apply relv_scale in Hv; auto. unfold holdsV. rewrite El. cbn. rewrite vadd_0_r. auto. }
        destruct (Bd qa ca Hqa Ela Hfa) as (ba & j & W1 & W2 & W3 & W4 & W5). destruct (Bd qb cb Hqb Elb Hfb) as (bb & j' & Y1 & Y2 & Y3 & Y4 & Y5).
        assert (j' = j) as -> by congruence.
        assert (Hcf : forall b b', (b = ba /\ b' = bb) \/ (b = bb /\ b' = ba) -> bconflicts b b' = true).
        { intros b b' Hbb. apply bconflicts_spec. intros (v & V1 & V2). apply Hun. exists (fun _ => v). destruct Hbb as [[-> ->]|[-> ->]]; auto. }
        assert (Hvs : vr s4 j ∈ s_vars s4). { unfold vr. destruct (lookup_lt_is_Some_2 (s_vars s4) j W2) as [v Ev]. rewrite Ev. eapply elem_of_list_lookup_2; eauto. }
        apply elem_of_list_lookup in W1 as (i1 & W1). apply elem_of_list_lookup in Y1 as (i2 & Y1).
        destruct (Nat.lt_trichotomy i1 i2) as [Hi|[Hi|Hi]].
        * left. apply elem_of_app. right. rewrite <- W4, <- Y4. apply (M2 Ek (vr s4 j) i1 i2); auto. split; [congruence|]. split; [rewrite Y4; auto|apply Hcf; auto].
        * exfalso. subst i2. assert (bb = ba) as -> by congruence. specialize (Hcf ba ba ltac:(auto)). apply bconflicts_spec in Hcf. apply Hcf. exists (b_val ba).
          unfold bs_rel. destruct (b_rel ba); auto using vle_refl.
        * right. apply elem_of_app. right. rewrite <- W4, <- Y4. apply (M2 Ek (vr s4 j) i2 i1); auto. split; [rewrite W4, Y4; intros E'; apply Hlit; lia|]. split; [rewrite W4; auto|apply Hcf; auto].
    - eexists _, _, _. split; [reflexivity|]. split; auto. exists n1. split; auto. split; [auto|]. split; [auto|]. intros _ -> Hpc. rewrite Hpc in Epc. discriminate.
  Qed.
End prepare.
