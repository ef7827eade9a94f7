(** * C65: clingolpx_version and the version the application prints *)
From Coq Require Import Ascii String.
From Verif Require Import Num Api.

(** ** Model *)
(** clingo-lpx.h 31-37 *)
Definition version_major : Z := 1.
Definition version_minor : Z := 3.
Definition version_revision : Z := 0.
Definition version_text : string := "1.3.0".
(** memory: the int objects; a pointer is null ([None]) or an address *)
Definition ints : Type := nat -> option Z.
Definition store_int (p : option nat) (z : Z) (M : ints) : res ints :=
  match p with
  | None => Ok M
  | Some a => match M a with None => UB | Some _ => Ok (fun q => if q =? a then Some z else M q) end
  end.
(** clingolpx_version, clingo-lpx.cc 335-345 *)
Definition version (major minor patch : option nat) (M : ints) : res ints :=
  M1 ← store_int major version_major M;
  M2 ← store_int minor version_minor M1;
  store_int patch version_revision M2.
(** App::version, main.cc 66, handed to clingo *)
Definition app_version : string := version_text.

(** ** Theorems *)
(** [p] is null or points to an int *)
Definition good_pointer (M : ints) (p : option nat) : Prop := match p with None => True | Some a => exists z, M a = Some z end.
Lemma store_int_ok p z M : good_pointer M p -> exists M', store_int p z M = Ok M' /\ (forall q, M' q = if bool_decide (p = Some q) then Some z else M q) /\ forall r, good_pointer M r -> good_pointer M' r.
Proof.
  destruct p as [a|]; cbn [good_pointer store_int].
  - intros [y ->]. eexists. split; [reflexivity|]. split.
    + intros q. destruct (Nat.eqb_spec q a) as [->|N]; [rewrite bool_decide_eq_true_2; auto|rewrite bool_decide_eq_false_2; [auto|congruence]].
    + intros [b|]; [|auto]. cbn. intros [w E]. destruct (b =? a); eauto.
  - intros _. exists M. split; [reflexivity|]. split; [|auto]. intros q. rewrite bool_decide_eq_false_2; [auto|discriminate].
Qed.
(** whatever pointers are null or equal *)
Theorem C65_any_pointers a b c M : good_pointer M a -> good_pointer M b -> good_pointer M c ->
  exists M', version a b c M = Ok M' /\
    forall q, (c = Some q -> M' q = Some 0%Z) /\ (c <> Some q -> b = Some q -> M' q = Some 3%Z) /\ (c <> Some q -> b <> Some q -> a = Some q -> M' q = Some 1%Z) /\
      (c <> Some q -> b <> Some q -> a <> Some q -> M' q = M q).
Proof.
  intros Ha Hb Hc. destruct (store_int_ok a version_major M Ha) as (M1 & E1 & F1 & G1). destruct (store_int_ok b version_minor M1 (G1 _ Hb)) as (M2 & E2 & F2 & G2).
  destruct (store_int_ok c version_revision M2 (G2 _ (G1 _ Hc))) as (M3 & E3 & F3 & _). exists M3. split.
  - unfold version. rewrite E1. cbn [mbind res_bind]. rewrite E2. cbn [mbind res_bind]. exact E3.
  - intros q. rewrite F3, F2, F1. repeat case_bool_decide; repeat split; intros; try tauto; try reflexivity.
Qed.
(** the text of the application is what the three numbers say *)
Definition dotted (x y z : Z) : list ascii := (print_rat (Q2Qc (inject_Z x)) ++ "."%char :: print_rat (Q2Qc (inject_Z y)) ++ "."%char :: print_rat (Q2Qc (inject_Z z)))%list.
Theorem C65_same_version a b c M x y z M' : a <> b -> a <> c -> b <> c -> good_pointer M (Some a) -> good_pointer M (Some b) -> good_pointer M (Some c) ->
  version (Some a) (Some b) (Some c) M = Ok M' -> M' a = Some x -> M' b = Some y -> M' c = Some z -> list_ascii_of_string app_version = dotted x y z.
Proof.
  intros Nab Nac Nbc Ha Hb Hc E Ex Ey Ez. destruct (C65_any_pointers _ _ _ _ Ha Hb Hc) as (M2 & E2 & F). rewrite E in E2. injection E2 as <-.
  pose proof (F a) as (_ & _ & A & _). pose proof (F b) as (_ & B & _ & _). pose proof (F c) as (C & _).
  rewrite A in Ex by congruence. rewrite B in Ey by congruence. rewrite C in Ez by congruence. injection Ex as <-. injection Ey as <-. injection Ez as <-. vm_compute. reflexivity.
Qed.
Definition three_ints : ints := fun q => if q <? 3 then Some 7%Z else None.
Theorem C65_example : (exists M', version (Some 0) (Some 1) (Some 2) three_ints = Ok M' /\ map M' [0; 1; 2; 3] = [Some 1%Z; Some 3%Z; Some 0%Z; None]) /\
  (exists M', version (Some 1) None (Some 1) three_ints = Ok M' /\ map M' [0; 1; 2] = [Some 7%Z; Some 0%Z; Some 7%Z]) /\ version (Some 3) None None three_ints = UB.
Proof. split; [eexists; split; reflexivity|]. split; [eexists; split; reflexivity|reflexivity]. Qed.
