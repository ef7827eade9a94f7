(** * Every admissible history keeps the invariant *)

From Verif Require Import Num Sums Tableau TableauProofs Bland Solver SolverBase SolverStep Simplex SimplexLoop Hist Updates Core CoreSolve Propagate
  OptSelect Optimize Spec Eps Prepare Propagator World ThreadOk.

Lemma find_from_spec {Sym} `{EqDecision Sym} (vs : list Sym) x : NoDup vs -> forall k i, find_from k vs x = Some i <-> k <= i /\ vs !! (i - k) = Some x.
Proof.
  intros Hn. induction Hn as [|y vs Hy Hn IH]; intros k i; cbn [find_from].
  - split; [discriminate|]. intros [_ E]. rewrite lookup_nil in E. discriminate.
  - destruct (decide (x = y)) as [->|Hxy].
    + split.
      * intros [= ->]. split; auto. rewrite Nat.sub_diag. auto.
      * intros [Hk E]. destruct (i - k) as [|j] eqn:Ej; [f_equal; lia|]. exfalso. apply Hy. cbn in E. eapply elem_of_list_lookup_2; eauto.
    + rewrite IH. split.
      * intros [Hk E]. split; [lia|]. replace (i - k) with (S (i - S k)) by lia. auto.
      * intros [Hk E]. destruct (i - k) as [|j] eqn:Ej; [cbn in E; congruence|]. split; [lia|]. replace (i - S k) with j by lia. auto.
Qed.
Lemma find_sym_spec {Sym} `{EqDecision Sym} (vs : list Sym) : NoDup vs -> forall x k, find_sym vs x = Some k <-> vs !! k = Some x.
Proof.
  intros Hn x k. unfold find_sym. rewrite find_from_spec by auto. rewrite Nat.sub_0_r. split; [tauto|]. split; [lia|auto].
Qed.
Lemma find_sym_none {Sym} `{EqDecision Sym} (vs : list Sym) x : find_sym vs x = None <-> x ∉ vs.
Proof.
  unfold find_sym. generalize 0. induction vs as [|y vs IH]; intros k; cbn.
  - split; auto. intros _ Hx. inversion Hx.
  - destruct (decide (x = y)) as [->|Hxy].
    + split; [discriminate|]. intros Hx. exfalso. apply Hx. left.
    + rewrite IH, not_elem_of_cons. tauto.
Qed.

Section proofs.
  Context {V : Type} `{VL : ValueLaws V} {Sym : Type} `{EqDecision Sym}.
  Implicit Types s : solver V.
  Implicit Types fs : list (frame V).
  Implicit Types w : world V Sym.

  Context (o : options) (qs : list (ineq Sym)) (obj : list (Qc * Sym)) (vs : list Sym) (h0 : host).
  Context (HnD : NoDup vs) (Hqs : forall q, q ∈ qs -> okterms (find_sym vs) (q_lhs q)) (Hobj : okterms (find_sym vs) obj).

  Notation prepared0 := (prepared vs (find_sym vs) h0 o qs obj).
  Notation rdv := (rd (find_sym vs)).

  Definition keep0 : bool := match o_store o with StoreNo => true | _ => false end.

  Lemma prepared_rows0 s0 : prepared0 s0 -> rows0 o s0.
  Proof.
    intros P. destruct (list_eq_dec (A := Qc * Sym) obj []) as [E|E].
    - pose proof (pd_obj0 _ _ _ _ _ _ _ P E) as Ea. constructor; congruence.
    - destruct (pd_obj1 _ _ _ _ _ _ _ P E) as (Ea & (R1 & R2 & R3 & R4) & Rb). constructor.
      + intros _. auto.
      + intros _ Hg. unfold glob in Hg. destruct Rb as ((B1 & B2 & B3 & B4) & B5); [destruct (o_global o); congruence|]. auto.
  Qed.
  Lemma prepared_TB s0 : prepared0 s0 -> TB o s0 [] [] s0.
  Proof.
    intros P. constructor; auto.
    - exists []. rewrite app_nil_r. split; auto. intros b Hb. inversion Hb.
    - intros Ha. destruct (list_eq_dec (A := Qc * Sym) obj []) as [E|E].
      + pose proof (pd_obj0 _ _ _ _ _ _ _ P E). congruence.
      + destruct (pd_obj1 _ _ _ _ _ _ _ P E) as (_ & (R1 & R2 & R3 & R4) & Rb). auto.
    - destruct (pd_new _ _ _ _ _ _ _ P) as (_ & -> & _). discriminate.
  Qed.

  (** ** The meaning of the bounds *)
  Lemma bound_reason s0 s ass rep b : prepared0 s0 -> TB o s0 ass rep s -> b ∈ s_bounds s ->
    (exists q, q ∈ qs /\ q_lhs q <> [] /\ repr (find_sym vs) s0 q b) \/
    ((b_lit b, b_val b) ∈ ass /\ obj <> [] /\ b_rel b = BGe /\ forall a, rows s0 a -> a (b_var b) = linV (rdv a) obj).
  Proof.
    intros P T Hb. destruct (tb_bs _ _ _ _ _ T) as (ex & E & F). rewrite E in Hb. apply elem_of_app in Hb as [Hb|Hb].
    - left. apply (pd_snd _ _ _ _ _ _ _ P); auto.
    - right. destruct (F b Hb) as (F1 & F2 & F3 & F4 & F5). split; auto.
      assert (Hne : obj <> []) by (intros E'; pose proof (pd_obj0 _ _ _ _ _ _ _ P E'); congruence). split; auto. split; auto.
      destruct (pd_obj1 _ _ _ _ _ _ _ P Hne) as (_ & _ & Rb). destruct Rb as ((B1 & B2 & B3 & B4) & B5); [unfold glob in F5; destruct (o_global o); congruence|].
      rewrite F2. auto.
  Qed.
  (** rational assignments as assignments of the solver's variables *)
  Lemma bsat_reason s0 s ass rep b (A : Sym -> Qc) a : prepared0 s0 -> TB o s0 ass rep s -> b ∈ s_bounds s -> rows s0 a ->
    (forall x, is_Some (find_sym vs x) -> rdv a x = vofq (A x)) ->
    exists g : reason, reason_lit g = b_lit b /\ match g with inl q => q ∈ qs | inr lv => lv ∈ ass end /\ (reason_holds obj A g -> bsat a b).
  Proof.
    intros P T Hb Hr Ha. destruct (bound_reason s0 s ass rep b P T Hb) as [(q & Hq & Hne & R)|(Hin & Hne & Er & Hv)].
    - exists (inl q). split; [symmetry; apply R|]. split; auto. intros Hh. eapply (holds_bsat (find_sym vs)); eauto.
    - exists (inr (b_lit b, b_val b)). split; auto. split; auto. cbn. intros Hle. unfold bsat. rewrite Er, Hv by auto.
      rewrite (linV_ext _ (fun x => vofq (A x))), linV_ofq; auto. intros c x Hin'. apply Ha. apply (proj2 Hobj c x); auto.
  Qed.

  Lemma valid_sound s0 s ass rep c : prepared0 s0 -> TB o s0 ass rep s -> valid s0 (s_bounds s) c -> clause_sound_obj qs obj ass c.
  Proof.
    intros P T (bs & -> & Hbs & Hun).
    assert (E : exists bad : list reason, map (fun b => (- b_lit b)%Z) bs = map (fun g => (- reason_lit g)%Z) bad /\
      (forall g, g ∈ bad -> match g with inl q => q ∈ qs | inr lv => lv ∈ ass end) /\
      (forall A a, rows s0 a -> (forall x, is_Some (find_sym vs x) -> rdv a x = vofq (A x)) -> (forall g, g ∈ bad -> reason_holds obj A g) -> forall b, b ∈ bs -> bsat a b)).
    { clear Hun. induction bs as [|b bs IH].
      - exists []. split; auto. split; [intros g Hg; inversion Hg|]. intros A a _ _ _ b Hb. inversion Hb.
      - destruct IH as (bad & E & Hm & Hs); [intros b' Hb'; apply Hbs; right; auto|].
        assert (Hb : b ∈ s_bounds s) by (apply Hbs; left).
        assert (D : exists g : reason, reason_lit g = b_lit b /\ match g with inl q => q ∈ qs | inr lv => lv ∈ ass end /\
          forall A a, rows s0 a -> (forall x, is_Some (find_sym vs x) -> rdv a x = vofq (A x)) -> reason_holds obj A g -> bsat a b).
        { destruct (bound_reason s0 s ass rep b P T Hb) as [(q & Hq & Hne & R)|(Hin & Hne & Er & Hv)].
          - exists (inl q). split; [symmetry; apply R|]. split; [exact Hq|]. intros A a Hr Ha Hh. eapply (holds_bsat (find_sym vs)); eauto.
          - exists (inr (b_lit b, b_val b)). split; auto. split; auto. cbn. intros A a Hr Ha Hle. unfold bsat. rewrite Er, Hv by auto.
            rewrite (linV_ext _ (fun x => vofq (A x))), linV_ofq; auto. intros c x Hin'. apply Ha. apply (proj2 Hobj c x); auto. }
        destruct D as (g & Eg & Mg & Sg). exists (g :: bad). split; [cbn; rewrite Eg, E; auto|]. split.
        + intros g' Hg'. apply elem_of_cons in Hg' as [->|Hg']; [exact Mg|exact (Hm g' Hg')].
        + intros A a Hr Ha Hh b' Hb'. apply elem_of_cons in Hb' as [->|Hb'].
          * apply (Sg A); auto. apply Hh. left.
          * apply (Hs A a); auto. intros g' Hg'. apply Hh. right. auto. }
    destruct E as (bad & E & Hm & Hs). exists bad. split; auto. split; auto. intros (A & HA).
    destruct (pd_ext _ _ _ _ _ _ _ P (fun x => vofq (A x))) as (a & Hr & Ha). apply (Hun a Hr). apply (Hs A); auto.
  Qed.

  (** ** The invariant *)
  Definition entry_of (f : frame V) : entry V := Entry (f_level f) (f_lits f) (map snap_of (s_vars (f_pre f))).

  Record TI (ass : list (Z * V)) (rep : list (V * bool)) (foff gen : nat) (s0 : solver V) (th : thread V) (x : nat * solver V) fs : Prop := {
    ti_stk : map entry_of fs = th_stk th;
    ti_live : if th_blk th then Dead keep0 s0 fs x.2 else Live keep0 s0 fs x.2;
    ti_blk : th_blk th = true -> exists c, clause_sound_obj qs obj ass c /\ falsified (held (th_stk th)) c = true;
    ti_tb : TB o s0 ass rep x.2;
    ti_gen : ob_gen (s_obj x.2) <= gen;
    ti_off : x.1 = 0 \/ x.1 = foff;
    ti_nv : forall f, f ∈ fs -> nv (f_pre f) = nv s0;
  }.

  Record WInv (s0s : list (solver V)) (log0 : list (list Z)) (facts0 : list Z) (ass : list (Z * V)) w : Prop := {
    wi_iqs : p_iqs (w_p w) = qs;
    wi_obj : p_obj (w_p w) = obj;
    wi_vars : p_vars (w_p w) = vs;
    wi_len1 : length (p_slvs (w_p w)) = length s0s;
    wi_len2 : length (w_th w) = length s0s;
    wi_foff : p_foff (w_p w) = length facts0;
    wi_facts : exists new, p_facts (w_p w) = facts0 ++ new;
    wi_th : forall t x s0, p_slvs (w_p w) !! t = Some x -> s0s !! t = Some s0 ->
        exists fs, TI ass (w_rep w) (p_foff (w_p w)) (os_gen (p_state (w_p w))) s0 (thread_of w t) x fs;
    wi_os : forall s0, s0 ∈ s0s -> osok (p_state (w_p w)) s0 (w_rep w);
    wi_ass : forall l v, (l, v) ∈ ass -> [l] ∈ w_log w /\ justified o (w_rep w) v;
    wi_log : exists new, w_log w = log0 ++ new /\ forall c, c ∈ new -> clause_sound_obj qs obj ass c \/ exists l v, (l, v) ∈ ass /\ c = [l];
  }.

  Lemma active_held fs : active fs = held (map entry_of fs).
  Proof. unfold active, held. rewrite map_map. auto. Qed.
  Lemma top_level fs : top fs = toplevel (map entry_of fs).
  Proof. destruct fs; auto. Qed.
  Lemma levels_ok a fs : levels a (map entry_of fs) -> lv_ok a fs.
  Proof. intros Hl f l Hf Hin. apply (Hl (entry_of f)); auto. apply elem_of_list_fmap. eauto. Qed.
  Lemma enter_deliver dl lits s fs : map entry_of (enter dl lits s fs) = deliver dl lits (map snap_of (s_vars s)) (map entry_of fs).
  Proof. destruct fs as [|f r]; cbn; auto. destruct (f_level f <? dl); auto. Qed.
  Lemma enter_lv a lits s fs : lv_ok a fs -> top fs <= a_dl a -> (forall l, l ∈ lits -> a_level a l = a_dl a) -> lv_ok a (enter (a_dl a) lits s fs).
  Proof.
    intros Hlv Ht Hl f l Hf Hin. unfold enter in Hf. destruct fs as [|f0 r].
    - apply elem_of_list_singleton in Hf as ->. auto.
    - cbn in Ht. destruct (Nat.ltb_spec (f_level f0) (a_dl a)).
      + apply elem_of_cons in Hf as [->|Hf]; auto.
      + apply elem_of_cons in Hf as [->|Hf]; [|apply Hlv; auto; right; auto]. cbn in *. apply elem_of_app in Hin as [Hin|Hin].
        * apply Hlv; auto. left.
        * rewrite (Hl l Hin). lia.
  Qed.
  Lemma enter_nv n dl lits s fs : nv s = n -> (forall f, f ∈ fs -> nv (f_pre f) = n) -> forall f, f ∈ enter dl lits s fs -> nv (f_pre f) = n.
  Proof.
    intros Hs Hf f Hin. unfold enter in Hin. destruct fs as [|f0 r].
    - apply elem_of_list_singleton in Hin as ->. auto.
    - destruct (f_level f0 <? dl).
      + apply elem_of_cons in Hin as [->|Hin]; auto.
      + apply elem_of_cons in Hin as [->|Hin]; [cbn; apply (Hf f0); left|apply Hf; right; auto].
  Qed.
  Lemma refutes_falsified s0 Bd act c : refutes s0 Bd act c -> falsified act c = true.
  Proof.
    intros (bs & -> & Hb & _). unfold falsified. apply forallb_forall. intros l Hl. apply in_map_iff in Hl as (b & <- & Hin).
    apply bool_decide_eq_true_2. rewrite Z.opp_involutive. apply Hb. apply elem_of_list_In. auto.
  Qed.
  (** the blocked flag against the result of a call *)
  Lemma blocks_live s0 fs s Bd log new (ok : bool) :
    (Live keep0 s0 fs s \/ ok = false /\ Dead keep0 s0 fs s /\ exists c, log ++ new = log ++ [c] /\ refutes s0 Bd (active fs) c) ->
    if blocks ok (map entry_of fs) (log ++ new) then Dead keep0 s0 fs s else Live keep0 s0 fs s.
  Proof.
    intros [HL|(-> & HD & c & E & R)].
    - destruct (blocks _ _ _); auto. apply Mid_Dead, HL.
    - unfold blocks. rewrite E, last_snoc, <- active_held, (refutes_falsified _ _ _ _ R). auto.
  Qed.

  (** threads other than [t] are untouched *)
  Lemma thread_other w t t' th : t <> t' -> default (Thread [] false) (<[t := th]> (w_th w) !! t') = thread_of w t'.
  Proof. intros Hn. unfold thread_of. rewrite list_lookup_insert_ne; auto. Qed.
  Lemma thread_same w t th : t < length (w_th w) -> default (Thread [] false) (<[t := th]> (w_th w) !! t) = th.
  Proof. intros Hn. rewrite list_lookup_insert; auto. Qed.

  (** a blocked thread has been given a sound clause that is false *)
  Lemma blocks_sound ok (k : list (entry V)) log new (P : list Z -> Prop) : (ok = false -> length log < length (log ++ new)) -> (ok = false -> forall c, c ∈ new -> P c) ->
    blocks ok k (log ++ new) = true -> exists c, P c /\ falsified (held k) c = true.
  Proof.
    intros Hg Hp. unfold blocks. destruct ok; [discriminate|]. specialize (Hg eq_refl). specialize (Hp eq_refl). cbn [negb andb].
    destruct new as [|c0 new0] eqn:En; [rewrite app_nil_r in Hg; lia|]. rewrite <- En in *.
    assert (Hl : exists c new', new = new' ++ [c]) by (destruct (exists_last (l := new)) as (n' & c & ->); [rewrite En; discriminate|eauto]).
    destruct Hl as (c & new' & ->). rewrite app_assoc, last_snoc. intros Hf. exists c. split; auto. apply Hp. apply elem_of_app. right. left.
  Qed.
  Lemma TI_mono ass ass' rep rep' foff gen gen' s0 th x fs : ass ⊆ ass' -> rep ⊆ rep' -> gen <= gen' ->
    TI ass rep foff gen s0 th x fs -> TI ass' rep' foff gen' s0 th x fs.
  Proof.
    intros Ha Hr Hg [A B X C D E F]. constructor; auto; [|eapply TB_mono; eauto|lia].
    intros Hb. destruct (X Hb) as (c & Hc & Hf). exists c. split; auto. eapply clause_sound_obj_mono; eauto.
  Qed.
  Lemma justified_mono rep rep' v : rep ⊆ rep' -> justified o rep v -> justified o rep' v.
  Proof. intros Hr [(w0 & g & d & A & B)|(G & w0 & A)]; [left; exists w0, g, d; auto|right; split; auto; exists w0; auto]. Qed.

  (** a safe call delivers no equality that damages the trail *)
  Lemma safe_lsafe s0 s ass rep w t h a lits fs : prepared0 s0 -> TB o s0 ass rep s -> p_iqs (w_p w) = qs -> map entry_of fs = th_stk (thread_of w t) ->
    eq_safe (EvPropagate t h a lits) w -> lsafe (a_dl a) (s_bounds s) (active (enter (a_dl a) lits s fs)) lits.
  Proof.
    intros P T Eq Ek [Hz|Hs] b Hb Hl; [left; auto|]. right. intros Er c Hc Ev Ha Hlo.
    destruct (tb_bs _ _ _ _ _ T) as (ex & E & F). rewrite E in Hb, Hc. pose proof (prepared_rows0 s0 P) as [_ R2].
    apply elem_of_app in Hb as [Hb|Hb]; [|destruct (F b Hb); congruence].
    apply elem_of_app in Hc as [Hc|Hc].
    2:{ destruct (F c Hc) as (_ & F2 & _ & F4 & F5). destruct (R2 F4 F5) as (_ & _ & R3). apply (R3 b Hb). congruence. }
    destruct (pd_slack _ _ _ _ _ _ _ P b c Hb Hc Ev Er Hlo) as (q & q' & co & co' & x & Q1 & Q2 & Q3 & Q4 & Q5 & Q6 & Q7 & Q8 & Q9).
    rewrite <- Eq in Q1, Q2. apply (Hs q q' co co' x); auto; [rewrite Q7; auto|]. rewrite Q8, elem_of_app, <- Ek, <- active_held. apply enter_active in Ha. auto.
  Qed.

  Section step.
    Context (s0s : list (solver V)) (log0 : list (list Z)) (facts0 : list Z).
    Context (Hprep : forall s0, s0 ∈ s0s -> prepared0 s0) (Hstep : stepok (V := V) o).
    Context (fuel : nat) (Hfuel : forall s0, s0 ∈ s0s -> 4 ^ nv s0 <= fuel).

    Definition wpost ass w (e : event) (w' : world V Sym) : Prop :=
      exists ass', WInv s0s log0 facts0 (ass ++ ass') w'.

    Theorem step_propagate ass w t h a lits : WInv s0s log0 facts0 ass w -> adm (EvPropagate t h a lits) w -> eq_safe (EvPropagate t h a lits) w ->
      exists w', wstep fuel o (EvPropagate t h a lits) w = Ok w' /\ WInv s0s log0 facts0 ass w'.
    Proof.
      intros [I1 I2 I3 I4 I5 I6 I7 I8 I9 I10 I11] (Ht & Hblk & Htop & Hlv & Hll) Hsafe. cbn [wstep]. unfold p_propagate.
      assert (Hx : exists off s, p_slvs (w_p w) !! t = Some (off, s)).
      { destruct (lookup_lt_is_Some_2 (p_slvs (w_p w)) t ltac:(lia)) as [[off s] E]. eauto. }
      destruct Hx as (off & s & Es). destruct (lookup_lt_is_Some_2 s0s t ltac:(lia)) as [s0 E0].
      destruct (I8 t _ s0 Es E0) as (fs & [T1 T2 TB2 T3 T4 T5 T6]). rewrite Hblk in T2. cbn [fst snd] in *.
      assert (P0 : prepared0 s0) by (apply Hprep; eapply elem_of_list_lookup_2; eauto).
      assert (Hnv : nv s = nv s0) by apply T2.
      set (p1 := if (a_dl a =? 0) && (t =? 0) then _ else w_p w).
      assert (Hp1 : p_slvs p1 = p_slvs (w_p w) /\ p_iqs p1 = p_iqs (w_p w) /\ p_obj p1 = p_obj (w_p w) /\ p_vars p1 = p_vars (w_p w) /\ p_foff p1 = p_foff (w_p w) /\
        p_state p1 = p_state (w_p w) /\ exists new, p_facts p1 = facts0 ++ new).
      { destruct I7 as (nf & I7). subst p1. destruct ((a_dl a =? 0) && (t =? 0)); cbn; auto 10.
        - split; auto. split; auto. split; auto. split; auto. split; auto. split; auto. exists (nf ++ lits). rewrite I7, app_assoc. auto.
        - split; auto. split; auto. split; auto. split; auto. split; auto. split; auto. exists nf. auto. }
      destruct Hp1 as (Q1 & Q2 & Q3 & Q4 & Q5 & Q6 & Q7).
      unfold at_ at 1. rewrite Q1, Es. cbn [mbind res_bind].
      rewrite <- T1, <- top_level in Htop. rewrite <- T1 in Hlv. apply levels_ok in Hlv.
      destruct (solve_ok keep0 s0 fs s a o h lits (w_log w) fuel T2 Htop) as (s' & log' & ok & Esol & Ep & Hfk & (new & -> & Hn) & Hres).
      { unfold keep0. destruct (o_store o); congruence. }
      { apply enter_lv; auto. }
      { eapply (safe_lsafe s0 s ass (w_rep w)); eauto. }
      { rewrite Hnv. apply Hfuel. eapply elem_of_list_lookup_2; eauto. }
      rewrite Esol. cbn [mbind res_bind]. eexists. split; [reflexivity|].
      assert (T3' : TB o s0 ass (w_rep w) s') by (eapply TB_pstat; eauto using prepared_rows0).
      assert (Tlen : t < length (p_slvs p1)) by (rewrite Q1; lia).
      constructor; cbn [w_p w_log w_th w_rep put_thread p_iqs p_obj p_vars p_slvs p_foff p_facts p_state]; try congruence.
      - rewrite insert_length. congruence.
      - rewrite insert_length. congruence.
      - intros t' x s0' Ex E0'. rewrite Q5, Q6. unfold thread_of. cbn [w_th]. destruct (decide (t' = t)) as [->|Htt].
        + rewrite list_lookup_insert in Ex by auto. injection Ex as <-. rewrite E0 in E0'. injection E0' as <-.
          rewrite list_lookup_insert by lia. cbn [default id]. fold (thread_of w t). unfold snaps. rewrite Es.
          exists (enter (a_dl a) lits s fs). constructor; cbn [th_stk th_blk fst snd]; auto.
          * rewrite enter_deliver, T1. auto.
          * rewrite <- T1, <- enter_deliver. apply (blocks_live s0 _ _ (s_bounds s)); auto.
          * apply blocks_sound; [apply (solve_grew _ _ _ _ _ _ _ _ _ _ Esol)|intros _ c Hc; apply (valid_sound s0 s ass (w_rep w)); auto].
          * unfold pstat in Ep. replace (s_obj s') with (s_obj s) by congruence. auto.
          * apply enter_nv; auto.
        + rewrite list_lookup_insert_ne in Ex by auto. rewrite Q1 in Ex. rewrite list_lookup_insert_ne by auto. apply (I8 t'); auto.
      - intros s0' Hs0'. rewrite Q6. auto.
      - intros l v Hl. destruct (I10 l v Hl). split; auto. apply elem_of_app. left; auto.
      - destruct I11 as (n & -> & Hn'). exists (n ++ new). rewrite app_assoc. split; auto. intros c Hc. apply elem_of_app in Hc as [Hc|Hc]; auto.
        left. apply (valid_sound s0 s ass (w_rep w)); auto.
    Qed.

    Theorem step_undo ass w t : WInv s0s log0 facts0 ass w -> adm (EvUndo t) w ->
      exists w', wstep fuel o (EvUndo t) w = Ok w' /\ WInv s0s log0 facts0 ass w' /\
        (forall e, head (th_stk (thread_of w t)) = Some e -> map fst (snaps (w_p w') t) = map fst (en_snap e) /\ (o_store o = StoreNo -> snaps (w_p w') t = en_snap e)).
    Proof.
      intros [I1 I2 I3 I4 I5 I6 I7 I8 I9 I10 I11] (Ht & Hl). cbn [wstep]. unfold p_undo.
      assert (Hx : exists off s, p_slvs (w_p w) !! t = Some (off, s)).
      { destruct (lookup_lt_is_Some_2 (p_slvs (w_p w)) t ltac:(lia)) as [[off s] E]. eauto. }
      destruct Hx as (off & s & Es). destruct (lookup_lt_is_Some_2 s0s t ltac:(lia)) as [s0 E0].
      destruct (I8 t _ s0 Es E0) as (fs & [T1 T2 TB2 T3 T4 T5 T6]). cbn [fst snd] in *.
      assert (HD : Dead keep0 s0 fs s) by (destruct (th_blk (thread_of w t)); auto; apply Mid_Dead, T2).
      rewrite <- T1 in Hl. destruct fs as [|f fs]; [cbn in Hl; lia|]. destruct f as [L lits p]. cbn in Hl.
      unfold at_ at 1. rewrite Es. cbn [mbind res_bind].
      destruct (undo_ok keep0 s0 L lits p fs s HD Hl) as (s' & -> & L' & Hv & Pm & Tb & Bd & Ob & Nn & Nb & Nv).
      cbn [mbind res_bind]. eexists. split; [reflexivity|].
      assert (Fk : forall y, Bs s' y = Bs s y) by (intros y; unfold Bs; rewrite Nn; destruct (Pm y) as [_ ->]; auto).
      split; [constructor; cbn [w_p w_log w_th w_rep put_thread p_iqs p_obj p_vars p_slvs p_foff p_facts p_state]; auto|].
      - rewrite insert_length. auto.
      - rewrite insert_length. auto.
      - intros t' x s0' Ex E0'. unfold thread_of. cbn [w_th]. destruct (decide (t' = t)) as [->|Htt].
        + rewrite list_lookup_insert in Ex by lia. injection Ex as <-. rewrite E0 in E0'. injection E0' as <-.
          rewrite list_lookup_insert by lia. cbn [default id]. exists fs. constructor; cbn [th_stk th_blk fst snd]; auto.
          * fold (thread_of w t). rewrite <- T1. auto.
          * discriminate.
          * pose proof T3 as [A B C D E F G]. constructor; rewrite ?Ob, ?Nn, ?Bd, ?Fk; auto.
          * rewrite Ob. auto.
          * intros f Hf. apply T6. right. auto.
        + rewrite list_lookup_insert_ne in Ex by auto. rewrite list_lookup_insert_ne by auto. apply (I8 t'); auto.
      - intros e He. rewrite <- T1 in He. cbn in He. injection He as <-. cbn [w_p]. unfold snaps, put_thread. cbn [p_slvs].
        rewrite list_lookup_insert by lia. cbn [en_snap entry_of f_pre].
        assert (Np : nv p = nv s0) by (apply (T6 (Frame L lits p)); left).
        assert (Ns : nv s' = nv s0) by apply L'.
        assert (Ei : forall i, i < nv s0 -> exists v1 v2, s_vars s' !! i = Some v1 /\ s_vars p !! i = Some v2 /\ v_lower v1 = v_lower v2 /\ v_upper v1 = v_upper v2 /\ (keep0 = true -> v_val v1 = v_val v2)).
        { intros i Hi. destruct (Hv i) as (Hl1 & Hu1 & Hvi). unfold lo, up, val, vr in Hl1, Hu1, Hvi.
          destruct (lookup_lt_is_Some_2 (s_vars s') i) as [v1 E1]; [unfold nv in *; lia|]. destruct (lookup_lt_is_Some_2 (s_vars p) i) as [v2 E2]; [unfold nv in *; lia|].
          rewrite E1, E2 in *. cbn in *. exists v1, v2. auto 6. }
        split.
        + rewrite !map_map. apply list_eq. intros i. rewrite !list_lookup_fmap. destruct (Nat.lt_ge_cases i (nv s0)) as [Hi|Hi].
          * destruct (Ei i Hi) as (v1 & v2 & -> & -> & A & B & C). cbn. rewrite A, B. auto.
          * rewrite !lookup_ge_None_2; auto; unfold nv in *; lia.
        + intros Hs. assert (Hk : keep0 = true) by (unfold keep0; rewrite Hs; auto).
          apply list_eq. intros i. rewrite !list_lookup_fmap. destruct (Nat.lt_ge_cases i (nv s0)) as [Hi|Hi].
          * destruct (Ei i Hi) as (v1 & v2 & -> & -> & A & B & C). cbn. unfold snap_of. rewrite A, B, C; auto.
          * rewrite !lookup_ge_None_2; auto; unfold nv in *; lia.
    Qed.

    Theorem step_model ass w t : WInv s0s log0 facts0 ass w -> adm (EvModel t) w ->
      exists w', wstep fuel o (EvModel t) w = Ok w' /\ WInv s0s log0 facts0 ass w'.
    Proof.
      intros [I1 I2 I3 I4 I5 I6 I7 I8 I9 I10 I11] (Ht & Hb). cbn [wstep]. unfold p_get_objective, p_on_model.
      assert (Hx : exists off s, p_slvs (w_p w) !! t = Some (off, s)).
      { destruct (lookup_lt_is_Some_2 (p_slvs (w_p w)) t ltac:(lia)) as [[off s] E]. eauto. }
      destruct Hx as (off & s & Es). destruct (lookup_lt_is_Some_2 s0s t ltac:(lia)) as [s0 E0].
      destruct (I8 t _ s0 Es E0) as (fs & [T1 T2 TB2 T3 T4 T5 T6]). cbn [fst snd] in *. rewrite Hb in T2.
      assert (Hnv : nv s = nv s0) by apply T2. assert (Hin0 : s0 ∈ s0s) by (eapply elem_of_list_lookup_2; eauto).
      assert (Eat : at_ (p_slvs (w_p w)) t = Ok (off, s)) by (unfold at_; rewrite Es; auto). rewrite Eat. cbn [mbind res_bind].
      assert (Hg : exists v, get_objective s = Ok v /\ (v <> None -> ob_active (s_obj s0) = true)).
      { unfold get_objective. rewrite (tb_act _ _ _ _ _ T3). destruct (ob_active (s_obj s0)) eqn:Ea; [|exists None; split; auto; congruence].
        destruct (r0_var _ _ (prepared_rows0 s0 (Hprep s0 Hin0)) Ea) as [Hz _].
        rewrite (tb_var _ _ _ _ _ T3), at_vr by lia. cbn [mbind res_bind]. eexists. split; auto. }
      destruct Hg as (v & Ev & Hact). change (match Ok (off, s) with Ok a => (fun '(_, s) => get_objective s) a | UB => UB | Exn => Exn | Fuel => Fuel end) with (get_objective s).
      rewrite ?Ev. cbn [mbind res_bind].
      set (rep' := match v with Some x => w_rep w ++ [x] | None => w_rep w end).
      assert (Hrep : w_rep w ⊆ rep') by (subst rep'; destruct v; auto; intros x Hx; apply elem_of_app; auto).
      assert (HK : forall p, p_iqs p = p_iqs (w_p w) -> p_obj p = p_obj (w_p w) -> p_vars p = p_vars (w_p w) -> p_slvs p = p_slvs (w_p w) -> p_foff p = p_foff (w_p w) ->
         p_facts p = p_facts (w_p w) -> os_gen (p_state (w_p w)) <= os_gen (p_state p) -> (forall s0, s0 ∈ s0s -> osok (p_state p) s0 rep') ->
         WInv s0s log0 facts0 ass (World p (w_log w) (w_th w) rep')).
      { intros p E1 E2 E3 E4 E5 E6 E7 E8. constructor; cbn [w_p w_log w_th w_rep]; try congruence.
        - rewrite E6. auto.
        - intros t' x s0' Ex E0'. rewrite E4 in Ex. destruct (I8 t' x s0' Ex E0') as (fs' & HT). exists fs'. rewrite E5.
          eapply TI_mono; [| | |exact HT]; auto.
        - exact E8.
        - intros l v' Hl. destruct (I10 l v' Hl). split; auto. eapply justified_mono; eauto. }
      destruct (o_global o) as [g|].
      2:{ cbn [mbind res_bind]. eexists. split; [reflexivity|]. apply HK; auto. intros s1 Hs1 Hne. destruct (I9 s1 Hs1 Hne). auto. }
      rewrite ?Eat. cbn [mbind res_bind]. rewrite ?Ev. cbn [mbind res_bind].
      destruct v as [x|]; cbn [mbind res_bind].
      2:{ eexists. split; [reflexivity|]. apply HK; auto. }
      eexists. split; [reflexivity|]. apply HK; auto; cbn [p_state].
      - unfold os_update. destruct (_ && _); cbn; lia.
      - assert (Hall : forall s1, s1 ∈ s0s -> ob_active (s_obj s1) = true).
        { intros s1 Hs1. specialize (Hact ltac:(congruence)). destruct (list_eq_dec (A := Qc * Sym) obj []) as [E|E].
          - pose proof (pd_obj0 _ _ _ _ _ _ _ (Hprep s0 Hin0) E). congruence.
          - apply (pd_obj1 _ _ _ _ _ _ _ (Hprep s1 Hs1) E). }
        intros s1 Hs1 Hne. split; [|apply Hall; auto]. unfold os_update in *. destruct (_ && _); cbn in *.
        + subst rep'. apply elem_of_app. right. destruct x. left.
        + destruct (I9 s1 Hs1 Hne). apply Hrep. auto.
    Qed.

    Theorem step_check ass w t h a total lit1 lit2 : WInv s0s log0 facts0 ass w -> adm (EvCheck t h a total lit1 lit2) w ->
      exists w' ass', wstep fuel o (EvCheck t h a total lit1 lit2) w = Ok w' /\ WInv s0s log0 facts0 (ass ++ ass') w' /\
        (total = true -> w_log w' = w_log w \/ th_stk (thread_of w' t) = th_stk (thread_of w t) /\ os_bounded (p_state (w_p w)) = false -> th_blk (thread_of w' t) = false -> forall off s, p_slvs (w_p w') !! t = Some (off, s) -> optres s) /\
        (th_stk (thread_of w' t) = th_stk (thread_of w t) -> th_blk (thread_of w' t) = false /\ forall v b v' b', p_get_objective (w_p w) t = Ok (Some (v, b)) -> p_get_objective (w_p w') t = Ok (Some (v', b')) -> vle v v') /\
        (forall l v, (l, v) ∈ ass' -> l = lit1 \/ l = lit2).
    Proof.
      intros [I1 I2 I3 I4 I5 I6 I7 I8 I9 I10 I11] (Ht & Hblk & Htop & Hlv & Hfl & Hfresh). cbn [wstep]. unfold p_check.
      assert (Hx : exists off s, p_slvs (w_p w) !! t = Some (off, s)).
      { destruct (lookup_lt_is_Some_2 (p_slvs (w_p w)) t ltac:(lia)) as [[off s] E]. eauto. }
      destruct Hx as (off & s & Es). destruct (lookup_lt_is_Some_2 s0s t ltac:(lia)) as [s0 E0].
      destruct (I8 t _ s0 Es E0) as (fs & [T1 T2 TB2 T3 T4 T5 T6]). rewrite Hblk in T2. cbn [fst snd] in *.
      assert (Hin0 : s0 ∈ s0s) by (eapply elem_of_list_lookup_2; eauto).
      assert (P0 : prepared0 s0) by auto.
      assert (Hnv : nv s = nv s0) by apply T2.
      unfold at_. rewrite Es. cbn [mbind res_bind].
      rewrite <- T1, <- top_level in Htop. rewrite <- T1 in Hlv. apply levels_ok in Hlv.
      destruct (t_check_ok keep0 o s0 fs s ass (w_rep w) fuel h a total lit1 lit2 (p_facts (w_p w)) (p_foff (w_p w)) (p_state (w_p w)) off (w_log w))
        as (off' & s' & log' & ok & ass' & -> & T3' & G' & Off' & Hass & (new & -> & Hn) & Hgr & Hmono & Hres); auto using prepared_rows0.
      { intros l Hl. rewrite active_held, T1. auto. }
      { destruct I7 as (nf & ->). rewrite app_length. lia. }
      cbn [mbind res_bind]. set (k := if (a_dl a =? 0) && (off <? p_foff (w_p w)) then _ else _). set (fs' := if (a_dl a =? 0) && (off <? p_foff (w_p w)) then _ else _) in Hres.
      assert (Ek : map entry_of fs' = k).
      { subst k fs'. destruct ((a_dl a =? 0) && (off <? p_foff (w_p w))); auto. rewrite enter_deliver, T1. unfold snaps. rewrite Es. auto. }
      assert (Hbl : if blocks ok k (w_log w ++ new) then Dead keep0 s0 fs' s' else Live keep0 s0 fs' s').
      { rewrite <- Ek. eapply blocks_live. destruct Hres as [[HL _]|(? & ? & ?)]; [left; auto|right; eauto]. }
      assert (Hstk : k = th_stk (thread_of w t) -> (a_dl a =? 0) && (off <? p_foff (w_p w)) = false).
      { intros Ek'. subst k. destruct ((a_dl a =? 0) && (off <? p_foff (w_p w))) eqn:Ec; auto. exfalso. apply andb_true_iff in Ec as [Ec1 Ec2].
          apply Nat.ltb_lt in Ec2. assert (Hlen : 0 < length (take (p_foff (w_p w)) (p_facts (w_p w)))).
          { rewrite take_length. destruct I7 as (nf & ->). rewrite app_length. lia. }
          unfold deliver in Ek'. destruct (th_stk (thread_of w t)) as [|e r]; [discriminate|]. destruct (Nat.ltb_spec (en_level e) 0); [lia|].
          apply (f_equal head) in Ek'. cbn in Ek'. injection Ek' as Ek'. destruct e as [L0 l0 sn0]. cbn in Ek'. injection Ek' as Ek'.
          apply (f_equal length) in Ek'. rewrite app_length in Ek'. lia. }
      exists (World (put_thread t (off', s') (w_p w)) (w_log w ++ new) (<[t := Thread k (blocks ok k (w_log w ++ new))]> (w_th w)) (w_rep w)), ass'.
      split; [reflexivity|]. split; [|split; [|split; [|intros l v Hl; apply (Hass l v Hl)]]].
      - constructor; cbn [w_p w_log w_th w_rep put_thread p_iqs p_obj p_vars p_slvs p_foff p_facts p_state]; auto.
        + rewrite insert_length. congruence.
        + rewrite insert_length. congruence.
        + intros t' x s0' Ex E0'. unfold thread_of. cbn [w_th]. destruct (decide (t' = t)) as [->|Htt].
          * rewrite list_lookup_insert in Ex by lia. injection Ex as <-. rewrite E0 in E0'. injection E0' as <-.
            rewrite list_lookup_insert by lia. cbn [default id]. exists fs'. constructor; cbn [th_stk th_blk fst snd]; auto.
            { apply blocks_sound; [intros Hok; apply Hgr; auto|]. intros Hok c Hc.
              destruct (Hgr Hok) as [_ Ea].
              destruct (Hn c Hc) as [Hs|(l & v & Hl & _)]; [|rewrite Ea in Hl; inversion Hl]. rewrite Ea, app_nil_r. apply (valid_sound s0 s ass (w_rep w)); auto. }
            subst fs'. destruct ((a_dl a =? 0) && (off <? p_foff (w_p w))); auto. apply enter_nv; auto.
          * rewrite list_lookup_insert_ne in Ex by auto. rewrite list_lookup_insert_ne by auto. destruct (I8 t' x s0' Ex E0') as (fs2 & HT). exists fs2.
            eapply TI_mono; [| | |exact HT]; auto. intros y Hy. apply elem_of_app; auto.
        + intros l v Hl. apply elem_of_app in Hl as [Hl|Hl].
          * destruct (I10 l v Hl). split; auto. apply elem_of_app; auto.
          * destruct (Hass l v Hl) as (_ & A & B). auto.
        + destruct I11 as (n & -> & Hn'). exists (n ++ new). rewrite app_assoc. split; auto. intros c Hc. apply elem_of_app in Hc as [Hc|Hc].
          * destruct (Hn' c Hc) as [Hs|(l & v & Hl & E)]; [left|right].
            -- eapply clause_sound_obj_mono; [|exact Hs]. intros y Hy. apply elem_of_app; auto.
            -- exists l, v. split; auto. apply elem_of_app; auto.
          * destruct (Hn c Hc) as [Hs|(l & v & Hl & E)]; [left|right].
            -- eapply clause_sound_obj_mono; [|eapply (valid_sound s0 s ass (w_rep w)); eauto]. intros y Hy. apply elem_of_app; auto.
            -- exists l, v. split; auto. apply elem_of_app; auto.
      - cbn [w_log w_p put_thread p_slvs]. unfold thread_of. cbn [w_th]. rewrite list_lookup_insert by lia. cbn [default id th_blk].
        intros Ht' El Hb off2 s2 E2. rewrite list_lookup_insert in E2 by lia. injection E2 as <- <-. cbn [th_stk] in El.
        destruct El as [El|[El Hub]].
        2:{ destruct (Hmono (Hstk El)) as [Hok _]. destruct Hres as [[HL Ho]|(Hok' & _)]; [|congruence]. apply Ho; auto. }
        destruct Hres as [[HL Ho]|(-> & HD & c & Ec & R)].
        + destruct ok; [apply Ho; auto|]. destruct (Hgr eq_refl) as [Hgr' _]. rewrite El in Hgr'. lia.
        + exfalso. rewrite El in Ec. apply (f_equal length) in Ec. rewrite app_length in Ec. cbn in Ec. lia.
      - unfold thread_of at 1 3. cbn [w_th w_p]. rewrite list_lookup_insert by lia. cbn [default id th_stk th_blk]. intros Ek'.
        specialize (Hstk Ek'). pose proof Hstk as Hc.
        destruct (Hmono Hc) as [Hok Hmono']. split; [unfold blocks; rewrite Hok; auto|]. intros v b v' b' G1 G2. unfold p_get_objective, at_ in G1, G2. cbn [put_thread p_slvs] in G2. rewrite list_lookup_insert in G2 by lia. rewrite Es in G1. cbn in G1, G2.
        unfold get_objective in G1, G2. rewrite (tb_act _ _ _ _ _ T3), (tb_var _ _ _ _ _ T3) in G1. rewrite (tb_act _ _ _ _ _ T3'), (tb_var _ _ _ _ _ T3') in G2.
        destruct (ob_active (s_obj s0)) eqn:Ea; [|discriminate]. destruct (r0_var _ _ (prepared_rows0 s0 P0) Ea) as [Hz _].
        assert (Hnv' : nv s' = nv s0). { destruct (blocks ok k (w_log w ++ new)); apply Hbl. }
        rewrite at_vr in G1 by lia. rewrite at_vr in G2 by lia. cbn in G1, G2. injection G1 as <- _. injection G2 as <- _. apply Hmono'; auto.
    Qed.
  End step.
End proofs.
