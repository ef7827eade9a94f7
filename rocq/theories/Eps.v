(** * Epsilon: values c + k*e stand for the rationals obtained for small e > 0 *)

From Verif Require Import Num Sums Solver Spec.

Section eps.
  Context {V : Type} `{VL : ValueLaws V}.

  (** the rational a value stands for when epsilon is [e] *)
  Definition inst (e : Qc) (v : V) : Qc := ((vemb v).1 + (vemb v).2 * e)%Qc.

  (** [P e] holds for all sufficiently small positive [e] *)
  Definition small (P : Qc -> Prop) : Prop := exists e0, (0 < e0)%Qc /\ forall e, (0 < e)%Qc -> (e <= e0)%Qc -> P e.

  Lemma small_all (P : Qc -> Prop) : (forall e, (0 < e)%Qc -> P e) -> small P.
  Proof. intros HP. exists 1%Qc. split; [reflexivity|auto]. Qed.
  Lemma small_and (P Q : Qc -> Prop) : small P -> small Q -> small (fun e => P e /\ Q e).
  Proof.
    intros (a & Ha & HP) (b & Hb & HQ). destruct (Qclt_le_dec a b).
    - exists a. split; auto. intros e He Hle. split; auto. apply HQ; auto. qclra.
    - exists b. split; auto. intros e He Hle. split; auto. apply HP; auto. qclra.
  Qed.
  Lemma small_mono (P Q : Qc -> Prop) : (forall e, (0 < e)%Qc -> P e -> Q e) -> small P -> small Q.
  Proof. intros HPQ (a & Ha & HP). exists a. split; auto. Qed.
  Lemma small_list {A} (P : A -> Qc -> Prop) (l : list A) : (forall x, x ∈ l -> small (P x)) -> small (fun e => forall x, x ∈ l -> P x e).
  Proof.
    induction l as [|x l IH]; intros Hl.
    - apply small_all. intros e _ y Hy. inversion Hy.
    - assert (S1 : small (P x)) by (apply Hl; left). assert (S2 : small (fun e => forall y, y ∈ l -> P y e)) by (apply IH; intros y Hy; apply Hl; right; auto).
      eapply small_mono; [|apply (small_and _ _ S1 S2)]. intros e _ [H1 H2] y Hy. apply elem_of_cons in Hy as [->|Hy]; auto.
  Qed.
  Lemma small_ex (P : Qc -> Prop) : small P -> exists e, (0 < e)%Qc /\ P e.
  Proof. intros (e & He & HP). exists e. split; [exact He|]. apply HP; [exact He|apply Qcle_refl]. Qed.

  Lemma inst_ofq e q : inst e (vofq q) = q.
  Proof. unfold inst. rewrite vemb_ofq. cbn. ring. Qed.
  Lemma inst_add e v w : inst e (vadd v w) = (inst e v + inst e w)%Qc.
  Proof. unfold inst. rewrite vemb_add. cbn. ring. Qed.
  Lemma inst_scale e c v : inst e (vscale c v) = (c * inst e v)%Qc.
  Proof. unfold inst. rewrite vemb_scale. cbn. ring. Qed.
  Lemma inst_zero e : inst e vzero = 0%Qc.
  Proof. unfold inst. rewrite vemb_zero. cbn. ring. Qed.
  Lemma inst_std e v : std v -> inst e v = (vemb v).1.
  Proof. unfold inst, std. intros ->. ring. Qed.

  (** strict comparisons become strict for small epsilon *)
  Lemma inst_lt_small (v w : V) : vlt v w -> small (fun e => (inst e v < inst e w)%Qc).
  Proof.
    rewrite vlt_emb. unfold inst. set (a := (vemb v).1). set (b := (vemb w).1). set (p := (vemb v).2). set (q := (vemb w).2).
    intros [Hl|[-> Hl]].
    - destruct (Qclt_le_dec q p) as [Hpq|Hpq].
      + assert (Hd : (0 < p - q)%Qc) by qclra. assert (Hd0 : (p - q)%Qc <> 0%Qc) by (intros E; rewrite E in Hd; apply (qc_lt_irrefl 0%Qc); auto).
        exists ((b - a) / (p - q) / (1 + 1))%Qc.
        assert (Hpos : (0 < (b - a) / (p - q))%Qc).
        { unfold Qcdiv. apply qc_mul_pos; [qclra|]. destruct (qc_total 0 (/ (p - q))%Qc) as [|[E|E]]; auto; exfalso.
          - assert (X : ((p - q) * / (p - q) = 0)%Qc) by (rewrite <- E; ring). rewrite Qcmult_inv_r in X by auto. discriminate.
          - assert (X : ((p - q) * / (p - q) = 1)%Qc) by (apply Qcmult_inv_r; auto). assert (Y : (0 < (p - q) * - / (p - q))%Qc) by (apply qc_mul_pos; qclra).
            replace ((p - q) * - / (p - q))%Qc with (- ((p - q) * / (p - q)))%Qc in Y by ring. rewrite X in Y. revert Y. clear. intros Y. qclra. }
        assert (H2 : ((b - a) / (p - q) / (1 + 1) * (1 + 1) = (b - a) / (p - q))%Qc) by (field; split; [auto|discriminate]).
        set (t := ((b - a) / (p - q) / (1 + 1))%Qc) in *. assert (E1 : ((p - q) * (t * (1 + 1)) = b - a)%Qc) by (rewrite H2; field; auto).
        split; [qclra|]. intros e He Hle. assert (M : ((p - q) * e <= (p - q) * t)%Qc).
        { assert (0 <= (p - q) * (t - e))%Qc by (apply qc_mul_nonneg; qclra). qclra. }
        assert (0 < (p - q) * t)%Qc by (apply qc_mul_pos; qclra). qclra.
      + apply small_all. intros e He. assert (0 <= (q - p) * e)%Qc by (apply qc_mul_nonneg; qclra). qclra.
    - apply small_all. intros e He. assert (0 < (q - p) * e)%Qc by (apply qc_mul_pos; qclra). qclra.
  Qed.
  Lemma inst_le_small (v w : V) : vle v w -> small (fun e => (inst e v <= inst e w)%Qc).
  Proof.
    intros Hl. apply vle_lt_eq in Hl as [Hl| ->].
    - eapply small_mono; [|apply inst_lt_small; eauto]. intros e _ ?. qclra.
    - apply small_all. intros e _. apply Qcle_refl.
  Qed.
  (** and conversely *)
  Lemma small_le_inst (v w : V) : small (fun e => (inst e v <= inst e w)%Qc) -> vle v w.
  Proof.
    intros Hs. destruct (decide (vle v w)) as [|Hn]; auto. exfalso. apply vnot_le in Hn. apply inst_lt_small in Hn.
    destruct (small_ex _ (small_and _ _ Hs Hn)) as (e & _ & H1 & H2). qclra.
  Qed.

  Context {Sym : Type}.
  Lemma inst_linV e (A : Sym -> V) ts : inst e (linV A ts) = lin (fun x => inst e (A x)) ts.
  Proof.
    induction ts as [|[c x] ts IH]; cbn [lin linV]; [apply inst_zero|]. rewrite inst_add, inst_scale, IH. auto.
  Qed.
  Lemma relv_small r (v w : V) : relv r v w -> small (fun e => relq r (inst e v) (inst e w)).
  Proof.
    destruct r; cbn; intros Hr.
    - apply inst_le_small; auto.
    - apply inst_le_small; auto.
    - subst. apply small_all. auto.
    - apply inst_lt_small; auto.
    - apply inst_lt_small; auto.
  Qed.
  (** a constraint that holds for values with epsilon holds for the rationals
      they stand for, for every small epsilon *)
  Lemma holdsV_small (A : Sym -> V) q : holdsV A q -> small (fun e => holds (fun x => inst e (A x)) q).
  Proof.
    unfold holdsV, holds. intros Hr. eapply small_mono; [|apply (relv_small _ _ _ Hr)]. cbn. intros e _ He.
    rewrite inst_linV, inst_ofq in He. auto.
  Qed.
  Lemma holdsV_small_all (A : Sym -> V) (P : ineq Sym -> Prop) (qs : list (ineq Sym)) : (forall q, q ∈ qs -> P q -> holdsV A q) ->
    (forall q, Decision (P q)) -> small (fun e => forall q, q ∈ qs -> P q -> holds (fun x => inst e (A x)) q).
  Proof.
    intros Hq Hd. apply (small_list (fun q e => P q -> holds (fun x => inst e (A x)) q)). intros q Hin.
    destruct (Hd q) as [Hp|Hp].
    - eapply small_mono; [|apply (holdsV_small A q); auto]. auto.
    - apply small_all. intros e _ ?. contradiction.
  Qed.
End eps.
