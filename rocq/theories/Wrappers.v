(** * The wrappers around the arithmetic libraries (number_flint.hh, number_imath.hh)

    The rest of the development computes in [Z] and [Qc].  This file models
    the classes Integer and Rational as they are: objects are memory cells, every
    overload is the sequence of library calls it consists of, results are fresh
    objects, arguments of type [T &&] are swapped with the result, compound
    assignments write to their left operand.

    The functions of FLINT and imath themselves are given by their
    documentation: they read their operands, which must be in canonical form,
    and then write the result, in canonical form, to the destination, which may
    be an operand.  Simplifications: memory is never exhausted, destructors
    are left out (cells are never used again), a [fixed_int] is any integer. *)

From Verif Require Import Num.

(** ** Memory *)
Notation store := (list Z) (only parsing).
Definition M (A : Type) : Type := store -> res (A * store).
Global Instance M_ret : MRet M := fun A a st => Ok (a, st).
Global Instance M_bind : MBind M := fun A B f m st =>
  match m st with Ok (a, st1) => f a st1 | UB => UB | Exn => Exn | Fuel => Fuel end.

(** An Integer is one cell, a Rational two: the members num and den of fmpq and mpq_t. *)
Notation integer := nat (only parsing).
Record rational := RObj { ro_num : integer; ro_den : integer }.

Definition rdz (i : integer) : M Z := fun st => match st !! i with Some z => Ok (z, st) | None => UB end.
Definition wrz (i : integer) (z : Z) : M unit := fun st => match st !! i with Some _ => Ok (tt, <[i := z]> st) | None => UB end.
Definition newz (z : Z) : M integer := fun st => Ok (length st, st ++ [z]).
Definition undefined {A} : M A := fun _ => UB.
Definition throw {A} : M A := fun _ => Exn.

(** The libraries require rationals in lowest terms with a positive denominator. *)
Definition canonical (n d : Z) : bool := (0 <? d)%Z && (Z.gcd n d =? 1)%Z.
Definition rdq (o : rational) : M Qc :=
  n ← rdz (ro_num o); d ← rdz (ro_den o);
  if canonical n d then mret (Q2Qc (n # Z.to_pos d)) else undefined.
Definition wrq (o : rational) (q : Qc) : M unit :=
  _ ← wrz (ro_num o) (Qnum (this q)); wrz (ro_den o) (Zpos (Qden (this q))).

(** ** The functions of the libraries *)

(** FLINT: destination first. *)
Definition fmpz_set (c a : integer) : M unit := x ← rdz a; wrz c x.
Definition fmpz_set_si (c : integer) (v : Z) : M unit := wrz c v.
Definition fmpz_swap (a b : integer) : M unit := x ← rdz a; y ← rdz b; _ ← wrz a y; wrz b x.
Definition fmpz_neg (c a : integer) : M unit := x ← rdz a; wrz c (- x)%Z.
Definition fmpz_add (c a b : integer) : M unit := x ← rdz a; y ← rdz b; wrz c (x + y)%Z.
Definition fmpz_sub (c a b : integer) : M unit := x ← rdz a; y ← rdz b; wrz c (x - y)%Z.
Definition fmpz_mul (c a b : integer) : M unit := x ← rdz a; y ← rdz b; wrz c (x * y)%Z.
Definition fmpz_add_si (c a : integer) (v : Z) : M unit := x ← rdz a; wrz c (x + v)%Z.
Definition fmpz_sub_si (c a : integer) (v : Z) : M unit := x ← rdz a; wrz c (x - v)%Z.
Definition fmpz_mul_si (c a : integer) (v : Z) : M unit := x ← rdz a; wrz c (x * v)%Z.
Definition fmpz_addmul (c a b : integer) : M unit := z ← rdz c; x ← rdz a; y ← rdz b; wrz c (z + x * y)%Z.
Definition fmpz_equal (a b : integer) : M bool := x ← rdz a; y ← rdz b; mret (x =? y)%Z.
Definition fmpz_equal_si (a : integer) (v : Z) : M bool := x ← rdz a; mret (x =? v)%Z.
(** comparisons return a number with the sign of the difference *)
Definition fmpz_cmp_si (a : integer) (v : Z) : M Z := x ← rdz a; mret (Z.sgn (x - v)).
Definition fmpz_gcd (c a b : integer) : M unit := x ← rdz a; y ← rdz b; wrz c (Z.gcd x y).

Definition qsgn (q : Qc) : Z := Z.sgn (Qnum (this q)).
Definition fmpq_set (c a : rational) : M unit := x ← rdq a; wrq c x.
(** only called with denominator 1 *)
Definition fmpq_set_si (c : rational) (v : Z) : M unit := wrq c (zq v).
(** swaps the two cells of each; no arithmetic *)
Definition fmpq_swap (a b : rational) : M unit := _ ← fmpz_swap (ro_num a) (ro_num b); fmpz_swap (ro_den a) (ro_den b).
Definition fmpq_neg (c a : rational) : M unit := x ← rdq a; wrq c (- x)%Qc.
(** a denominator of zero is undefined *)
Definition fmpq_canonicalise (c : rational) : M unit :=
  n ← rdz (ro_num c); d ← rdz (ro_den c); if (d =? 0)%Z then undefined else wrq c (zq n / zq d)%Qc.
Definition fmpq_add (c a b : rational) : M unit := x ← rdq a; y ← rdq b; wrq c (x + y)%Qc.
Definition fmpq_sub (c a b : rational) : M unit := x ← rdq a; y ← rdq b; wrq c (x - y)%Qc.
Definition fmpq_mul (c a b : rational) : M unit := x ← rdq a; y ← rdq b; wrq c (x * y)%Qc.
(** division by zero aborts *)
Definition fmpq_div (c a b : rational) : M unit := x ← rdq a; y ← rdq b; if Qc_eq_bool y 0 then undefined else wrq c (x / y)%Qc.
Definition fmpq_add_fmpz (c a : rational) (b : integer) : M unit := x ← rdq a; y ← rdz b; wrq c (x + zq y)%Qc.
Definition fmpq_sub_fmpz (c a : rational) (b : integer) : M unit := x ← rdq a; y ← rdz b; wrq c (x - zq y)%Qc.
Definition fmpq_mul_fmpz (c a : rational) (b : integer) : M unit := x ← rdq a; y ← rdz b; wrq c (x * zq y)%Qc.
Definition fmpq_div_fmpz (c a : rational) (b : integer) : M unit :=
  x ← rdq a; y ← rdz b; if (y =? 0)%Z then undefined else wrq c (x / zq y)%Qc.
Definition fmpq_add_si (c a : rational) (v : Z) : M unit := x ← rdq a; wrq c (x + zq v)%Qc.
Definition fmpq_sub_si (c a : rational) (v : Z) : M unit := x ← rdq a; wrq c (x - zq v)%Qc.
Definition fmpq_mul_si (c a : rational) (v : Z) : M unit := x ← rdq a; wrq c (x * zq v)%Qc.
Definition fmpq_equal (a b : rational) : M bool := x ← rdq a; y ← rdq b; mret (Qc_eq_bool x y).
Definition fmpq_equal_fmpz (a : rational) (b : integer) : M bool := x ← rdq a; y ← rdz b; mret (Qc_eq_bool x (zq y)).
Definition fmpq_equal_si (a : rational) (v : Z) : M bool := x ← rdq a; mret (Qc_eq_bool x (zq v)).
Definition fmpq_cmp (a b : rational) : M Z := x ← rdq a; y ← rdq b; mret (qsgn (x - y)%Qc).
Definition fmpq_cmp_fmpz (a : rational) (b : integer) : M Z := x ← rdq a; y ← rdz b; mret (qsgn (x - zq y)%Qc).
Definition fmpq_cmp_si (a : rational) (v : Z) : M Z := x ← rdq a; mret (qsgn (x - zq v)%Qc).

(** imath: destination last. *)
Definition mp_int_copy (a c : integer) : M unit := x ← rdz a; wrz c x.
Definition mp_int_set_value (c : integer) (v : Z) : M unit := wrz c v.
Definition mp_int_swap (a b : integer) : M unit := x ← rdz a; y ← rdz b; _ ← wrz a y; wrz b x.
Definition mp_int_neg (a c : integer) : M unit := x ← rdz a; wrz c (- x)%Z.
Definition mp_int_add (a b c : integer) : M unit := x ← rdz a; y ← rdz b; wrz c (x + y)%Z.
Definition mp_int_sub (a b c : integer) : M unit := x ← rdz a; y ← rdz b; wrz c (x - y)%Z.
Definition mp_int_mul (a b c : integer) : M unit := x ← rdz a; y ← rdz b; wrz c (x * y)%Z.
Definition mp_int_add_value (a : integer) (v : Z) (c : integer) : M unit := x ← rdz a; wrz c (x + v)%Z.
Definition mp_int_sub_value (a : integer) (v : Z) (c : integer) : M unit := x ← rdz a; wrz c (x - v)%Z.
Definition mp_int_mul_value (a : integer) (v : Z) (c : integer) : M unit := x ← rdz a; wrz c (x * v)%Z.
Definition mp_int_compare (a b : integer) : M Z := x ← rdz a; y ← rdz b; mret (Z.sgn (x - y)).
Definition mp_int_compare_value (a : integer) (v : Z) : M Z := x ← rdz a; mret (Z.sgn (x - v)).
(** MP_UNDEF, which the wrappers ignore, and no effect if both are zero *)
Definition mp_int_gcd (a b c : integer) : M unit := x ← rdz a; y ← rdz b; if (x =? 0)%Z && (y =? 0)%Z then mret tt else wrz c (Z.gcd x y).

Definition mp_rat_copy (a c : rational) : M unit := x ← rdq a; wrq c x.
Definition mp_rat_set_value (c : rational) (v : Z) : M unit := wrq c (zq v).
Definition mp_rat_neg (a c : rational) : M unit := x ← rdq a; wrq c (- x)%Qc.
(** MP_UNDEF for a denominator of zero, which mp_handle_error_ turns into an exception *)
Definition mp_rat_reduce (c : rational) : M unit :=
  n ← rdz (ro_num c); d ← rdz (ro_den c); if (d =? 0)%Z then throw else wrq c (zq n / zq d)%Qc.
Definition mp_rat_add (a b c : rational) : M unit := x ← rdq a; y ← rdq b; wrq c (x + y)%Qc.
Definition mp_rat_sub (a b c : rational) : M unit := x ← rdq a; y ← rdq b; wrq c (x - y)%Qc.
Definition mp_rat_mul (a b c : rational) : M unit := x ← rdq a; y ← rdq b; wrq c (x * y)%Qc.
Definition mp_rat_div (a b c : rational) : M unit := x ← rdq a; y ← rdq b; if Qc_eq_bool y 0 then throw else wrq c (x / y)%Qc.
Definition mp_rat_add_int (a : rational) (b : integer) (c : rational) : M unit := x ← rdq a; y ← rdz b; wrq c (x + zq y)%Qc.
Definition mp_rat_sub_int (a : rational) (b : integer) (c : rational) : M unit := x ← rdq a; y ← rdz b; wrq c (x - zq y)%Qc.
Definition mp_rat_mul_int (a : rational) (b : integer) (c : rational) : M unit := x ← rdq a; y ← rdz b; wrq c (x * zq y)%Qc.
Definition mp_rat_div_int (a : rational) (b : integer) (c : rational) : M unit :=
  x ← rdq a; y ← rdz b; if (y =? 0)%Z then throw else wrq c (x / zq y)%Qc.
Definition mp_rat_compare (a b : rational) : M Z := x ← rdq a; y ← rdq b; mret (qsgn (x - y)%Qc).
(** only called with denominator 1 *)
Definition mp_rat_compare_value (a : rational) (v : Z) : M Z := x ← rdq a; mret (qsgn (x - zq v)%Qc).

(** ** number_flint.hh

    [old]: FLINT before 2.6, the #else branches. *)
Section flint.
  Variable old : bool.

  (** 194-198: constructors *)
  Definition fI_new : M integer := newz 0.
  Definition fI_of (v : Z) : M integer := c ← fI_new; _ ← fmpz_set_si c v; mret c.
  (** 208, 212-215: copy *)
  Definition fI_copy (a : integer) : M integer := c ← fI_new; _ ← fmpz_set c a; mret c.
  Definition fI_assign (c a : integer) : M integer := _ ← fmpz_set c a; mret c.
  (** 224: swap; 210: move construction; 217-220: move assignment *)
  Definition fI_swap (a b : integer) : M unit := fmpz_swap a b.
  Definition fI_move (a : integer) : M integer := c ← fI_new; _ ← fI_swap c a; mret c.
  Definition fI_move_assign (c a : integer) : M integer := _ ← fI_swap c a; mret c.
  (** 240-243: neg *)
  Definition fI_neg (a : integer) : M integer := _ ← fmpz_neg a a; mret a.
  (** 231-238: add_mul *)
  Definition fI_add_mul (c a b : integer) : M integer := _ ← fmpz_addmul c a b; mret c.
  Definition fI_add_mul_m (c a b : integer) : M integer := r ← fI_add_mul c a b; fI_move r.

  (** 259-291: addition; suffixes: c const &, m &&, s fixed_int, e compound assignment *)
  Definition fI_add_cc (a b : integer) : M integer := c ← fI_new; _ ← fmpz_add c a b; mret c.
  Definition fI_add_cs (a : integer) (b : Z) : M integer :=
    if old then t ← fI_of b; fI_add_cc a t else c ← fI_new; _ ← fmpz_add_si c a b; mret c.
  Definition fI_add_ec (a b : integer) : M integer := _ ← fmpz_add a a b; mret a.
  Definition fI_add_es (a : integer) (b : Z) : M integer :=
    if old then t ← fI_of b; fI_add_ec a t else _ ← fmpz_add_si a a b; mret a.
  Definition fI_add_ms (a : integer) (b : Z) : M integer := r ← fI_add_es a b; fI_move r.
  Definition fI_add_mc (a b : integer) : M integer := r ← fI_add_ec a b; fI_move r.
  (** 295-298: unary minus, with the parameter copied *)
  Definition fI_opp (a : integer) : M integer := p ← fI_copy a; _ ← fI_neg p; fI_move p.
  (** 300-332: subtraction *)
  Definition fI_sub_cc (a b : integer) : M integer := c ← fI_new; _ ← fmpz_sub c a b; mret c.
  Definition fI_sub_cs (a : integer) (b : Z) : M integer :=
    if old then t ← fI_of b; fI_sub_cc a t else c ← fI_new; _ ← fmpz_sub_si c a b; mret c.
  Definition fI_sub_ec (a b : integer) : M integer := _ ← fmpz_sub a a b; mret a.
  Definition fI_sub_es (a : integer) (b : Z) : M integer :=
    if old then t ← fI_of b; fI_sub_ec a t else _ ← fmpz_sub_si a a b; mret a.
  Definition fI_sub_ms (a : integer) (b : Z) : M integer := r ← fI_sub_es a b; fI_move r.
  Definition fI_sub_mc (a b : integer) : M integer := r ← fI_sub_ec a b; fI_move r.
  (** 336-360: multiplication *)
  Definition fI_mul_cc (a b : integer) : M integer := c ← fI_new; _ ← fmpz_mul c a b; mret c.
  Definition fI_mul_cs (a : integer) (b : Z) : M integer := c ← fI_new; _ ← fmpz_mul_si c a b; mret c.
  Definition fI_mul_ec (a b : integer) : M integer := _ ← fmpz_mul a a b; mret a.
  Definition fI_mul_es (a : integer) (b : Z) : M integer := _ ← fmpz_mul_si a a b; mret a.
  Definition fI_mul_ms (a : integer) (b : Z) : M integer := r ← fI_mul_es a b; fI_move r.
  Definition fI_mul_mc (a b : integer) : M integer := r ← fI_mul_ec a b; fI_move r.
  (** 413: comparison with a fixed_int (with an Integer: C38); 388-392: == *)
  Definition fI_compare_s (a : integer) (b : Z) : M Z := fmpz_cmp_si a b.
  Definition fI_eq_s (a : integer) (b : Z) : M bool := fmpz_equal_si a b.
  Definition fI_eq_c (a b : integer) : M bool := fmpz_equal a b.
  (** 419-423: gcd *)
  Definition fI_gcd (a b : integer) : M integer := c ← fI_new; _ ← fmpz_gcd c a b; mret c.

  (** 435-439: constructors; fmpq_init sets 0/1 *)
  Definition fR_new : M rational := n ← newz 0; d ← newz 1; mret (RObj n d).
  Definition fR_of (v : Z) : M rational := c ← fR_new; _ ← fmpq_set_si c v; mret c.
  (** 468, 478-481: copy; 515: swap; 476, 483-486: move *)
  Definition fR_copy (a : rational) : M rational := c ← fR_new; _ ← fmpq_set c a; mret c.
  Definition fR_assign (c a : rational) : M rational := _ ← fmpq_set c a; mret c.
  Definition fR_swap (a b : rational) : M unit := fmpq_swap a b.
  Definition fR_move (a : rational) : M rational := c ← fR_new; _ ← fR_swap c a; mret c.
  Definition fR_move_assign (c a : rational) : M rational := _ ← fR_swap c a; mret c.
  (** 510-513: neg; 517: canonicalize *)
  Definition fR_neg (a : rational) : M rational := _ ← fmpq_neg a a; mret a.
  Definition fR_canonicalize (c : rational) : M unit := fmpq_canonicalise c.
  (** 470-474: from numerator and denominator, which are copied into the parameters *)
  Definition fR_of_ints (num den : integer) : M rational :=
    n ← fI_copy num; d ← fI_copy den; c ← fR_new;
    _ ← fI_move_assign (ro_num c) n; _ ← fI_move_assign (ro_den c) d; _ ← fR_canonicalize c; mret c.

  (** 520-561: addition; suffix z: Integer const & *)
  Definition fR_add_cc (a b : rational) : M rational := c ← fR_new; _ ← fmpq_add c a b; mret c.
  Definition fR_add_cz (a : rational) (b : integer) : M rational := c ← fR_new; _ ← fmpq_add_fmpz c a b; mret c.
  Definition fR_add_cs (a : rational) (b : Z) : M rational :=
    if old then t ← fR_of b; fR_add_cc a t else c ← fR_new; _ ← fmpq_add_si c a b; mret c.
  Definition fR_add_es (a : rational) (b : Z) : M rational := _ ← fmpq_add_si a a b; mret a.
  Definition fR_add_ez (a : rational) (b : integer) : M rational := _ ← fmpq_add_fmpz a a b; mret a.
  Definition fR_add_ec (a b : rational) : M rational := _ ← fmpq_add a a b; mret a.
  Definition fR_add_ms (a : rational) (b : Z) : M rational := r ← fR_add_es a b; fR_move r.
  Definition fR_add_mz (a : rational) (b : integer) : M rational := r ← fR_add_ez a b; fR_move r.
  Definition fR_add_mc (a b : rational) : M rational := r ← fR_add_ec a b; fR_move r.
  (** 565-568: unary minus *)
  Definition fR_opp (a : rational) : M rational := p ← fR_copy a; _ ← fR_neg p; fR_move p.
  (** 570-611: subtraction *)
  Definition fR_sub_cc (a b : rational) : M rational := c ← fR_new; _ ← fmpq_sub c a b; mret c.
  Definition fR_sub_cz (a : rational) (b : integer) : M rational := c ← fR_new; _ ← fmpq_sub_fmpz c a b; mret c.
  Definition fR_sub_cs (a : rational) (b : Z) : M rational :=
    if old then t ← fR_of b; fR_sub_cc a t else c ← fR_new; _ ← fmpq_sub_si c a b; mret c.
  Definition fR_sub_es (a : rational) (b : Z) : M rational := _ ← fmpq_sub_si a a b; mret a.
  Definition fR_sub_ez (a : rational) (b : integer) : M rational := _ ← fmpq_sub_fmpz a a b; mret a.
  Definition fR_sub_ec (a b : rational) : M rational := _ ← fmpq_sub a a b; mret a.
  Definition fR_sub_ms (a : rational) (b : Z) : M rational := r ← fR_sub_es a b; fR_move r.
  Definition fR_sub_mz (a : rational) (b : integer) : M rational := r ← fR_sub_ez a b; fR_move r.
  Definition fR_sub_mc (a b : rational) : M rational := r ← fR_sub_ec a b; fR_move r.
  (** 615-660: multiplication *)
  Definition fR_mul_cc (a b : rational) : M rational := c ← fR_new; _ ← fmpq_mul c a b; mret c.
  Definition fR_mul_cz (a : rational) (b : integer) : M rational := c ← fR_new; _ ← fmpq_mul_fmpz c a b; mret c.
  Definition fR_mul_cs (a : rational) (b : Z) : M rational :=
    if old then t ← fR_of b; fR_mul_cc a t else c ← fR_new; _ ← fmpq_mul_si c a b; mret c.
  Definition fR_mul_ec (a b : rational) : M rational := _ ← fmpq_mul a a b; mret a.
  Definition fR_mul_ez (a : rational) (b : integer) : M rational := _ ← fmpq_mul_fmpz a a b; mret a.
  Definition fR_mul_es (a : rational) (b : Z) : M rational :=
    if old then t ← fR_of b; fR_mul_ec a t else _ ← fmpq_mul_si a a b; mret a.
  Definition fR_mul_ms (a : rational) (b : Z) : M rational := r ← fR_mul_es a b; fR_move r.
  Definition fR_mul_mz (a : rational) (b : integer) : M rational := r ← fR_mul_ez a b; fR_move r.
  Definition fR_mul_mc (a b : rational) : M rational := r ← fR_mul_ec a b; fR_move r.
  (** 664-694: division *)
  Definition fR_div_cc (a b : rational) : M rational := c ← fR_new; _ ← fmpq_div c a b; mret c.
  Definition fR_div_cz (a : rational) (b : integer) : M rational := c ← fR_new; _ ← fmpq_div_fmpz c a b; mret c.
  Definition fR_div_cs (a : rational) (b : Z) : M rational := t ← fI_of b; fR_div_cz a t.
  Definition fR_div_ec (a b : rational) : M rational := _ ← fmpq_div a a b; mret a.
  Definition fR_div_ez (a : rational) (b : integer) : M rational := _ ← fmpq_div_fmpz a a b; mret a.
  Definition fR_div_es (a : rational) (b : Z) : M rational := t ← fI_of b; fR_div_ez a t.
  Definition fR_div_ms (a : rational) (b : Z) : M rational := r ← fR_div_es a b; fR_move r.
  Definition fR_div_mz (a : rational) (b : integer) : M rational := r ← fR_div_ez a b; fR_move r.
  Definition fR_div_mc (a b : rational) : M rational := r ← fR_div_ec a b; fR_move r.
  (** 771-787: comparison; 730-748: == *)
  Definition fR_compare_c (a b : rational) : M Z := fmpq_cmp a b.
  Definition fR_compare_s (a : rational) (b : Z) : M Z := if old then t ← fR_of b; fR_compare_c a t else fmpq_cmp_si a b.
  Definition fR_compare_z (a : rational) (b : integer) : M Z :=
    if old then one ← fI_of 1; t ← fR_of_ints b one; fR_compare_c a t else fmpq_cmp_fmpz a b.
  Definition fR_eq_c (a b : rational) : M bool := fmpq_equal a b.
  Definition fR_eq_s (a : rational) (b : Z) : M bool := if old then t ← fR_of b; fR_eq_c a t else fmpq_equal_si a b.
  Definition fR_eq_z (a : rational) (b : integer) : M bool :=
    if old then one ← fI_of 1; t ← fR_of_ints b one; fR_eq_c a t else fmpq_equal_fmpz a b.
End flint.

(** ** number_imath.hh *)

(** 213-217: constructors; 225, 229-232: copy; 241: swap; 227, 234-237: move *)
Definition mI_new : M integer := newz 0.
Definition mI_of (v : Z) : M integer := c ← mI_new; _ ← mp_int_set_value c v; mret c.
Definition mI_copy (a : integer) : M integer := c ← mI_new; _ ← mp_int_copy a c; mret c.
Definition mI_assign (c a : integer) : M integer := _ ← mp_int_copy a c; mret c.
Definition mI_swap (a b : integer) : M unit := mp_int_swap a b.
Definition mI_move (a : integer) : M integer := c ← mI_new; _ ← mI_swap c a; mret c.
Definition mI_move_assign (c a : integer) : M integer := _ ← mI_swap c a; mret c.
(** 252-255: neg *)
Definition mI_neg (a : integer) : M integer := _ ← mp_int_neg a a; mret a.
(** 271-295: addition *)
Definition mI_add_cs (a : integer) (b : Z) : M integer := c ← mI_new; _ ← mp_int_add_value a b c; mret c.
Definition mI_add_cc (a b : integer) : M integer := c ← mI_new; _ ← mp_int_add a b c; mret c.
Definition mI_add_es (a : integer) (b : Z) : M integer := _ ← mp_int_add_value a b a; mret a.
Definition mI_add_ec (a b : integer) : M integer := _ ← mp_int_add a b a; mret a.
Definition mI_add_ms (a : integer) (b : Z) : M integer := r ← mI_add_es a b; mI_move r.
Definition mI_add_mc (a b : integer) : M integer := r ← mI_add_ec a b; mI_move r.
(** 299-302: unary minus *)
Definition mI_opp (a : integer) : M integer := p ← mI_copy a; _ ← mI_neg p; mI_move p.
(** 304-328: subtraction *)
Definition mI_sub_cs (a : integer) (b : Z) : M integer := c ← mI_new; _ ← mp_int_sub_value a b c; mret c.
Definition mI_sub_cc (a b : integer) : M integer := c ← mI_new; _ ← mp_int_sub a b c; mret c.
Definition mI_sub_es (a : integer) (b : Z) : M integer := _ ← mp_int_sub_value a b a; mret a.
Definition mI_sub_ec (a b : integer) : M integer := _ ← mp_int_sub a b a; mret a.
Definition mI_sub_ms (a : integer) (b : Z) : M integer := r ← mI_sub_es a b; mI_move r.
Definition mI_sub_mc (a b : integer) : M integer := r ← mI_sub_ec a b; mI_move r.
(** 332-356: multiplication *)
Definition mI_mul_cs (a : integer) (b : Z) : M integer := c ← mI_new; _ ← mp_int_mul_value a b c; mret c.
Definition mI_mul_cc (a b : integer) : M integer := c ← mI_new; _ ← mp_int_mul a b c; mret c.
Definition mI_mul_es (a : integer) (b : Z) : M integer := _ ← mp_int_mul_value a b a; mret a.
Definition mI_mul_ec (a b : integer) : M integer := _ ← mp_int_mul a b a; mret a.
Definition mI_mul_ms (a : integer) (b : Z) : M integer := r ← mI_mul_es a b; mI_move r.
Definition mI_mul_mc (a b : integer) : M integer := r ← mI_mul_ec a b; mI_move r.
(** 248-250: add_mul *)
Definition mI_add_mul (c a b : integer) : M integer := t ← mI_mul_cc a b; mI_add_ec c t.
Definition mI_add_mul_m (c a b : integer) : M integer := t ← mI_mul_cc a b; r ← mI_add_ec c t; mI_move r.
(** 406-410: comparison; 384-392: == and != by compare *)
Definition mI_compare_s (a : integer) (b : Z) : M Z := mp_int_compare_value a b.
Definition mI_compare_c (a b : integer) : M Z := mp_int_compare a b.
(** 414-418: gcd *)
Definition mI_gcd (a b : integer) : M integer := c ← mI_new; _ ← mp_int_gcd a b c; mret c.

(** 430-434: constructors; 442, 452-455: copy; 489-492: swap; 450, 457-460: move *)
Definition mR_new : M rational := n ← newz 0; d ← newz 1; mret (RObj n d).
Definition mR_of (v : Z) : M rational := c ← mR_new; _ ← mp_rat_set_value c v; mret c.
Definition mR_copy (a : rational) : M rational := c ← mR_new; _ ← mp_rat_copy a c; mret c.
Definition mR_assign (c a : rational) : M rational := _ ← mp_rat_copy a c; mret c.
Definition mR_swap (a b : rational) : M unit := _ ← mp_int_swap (ro_num a) (ro_num b); mp_int_swap (ro_den a) (ro_den b).
Definition mR_move (a : rational) : M rational := c ← mR_new; _ ← mR_swap c a; mret c.
Definition mR_move_assign (c a : rational) : M rational := _ ← mR_swap c a; mret c.
(** 484-487: neg; 494: canonicalize; 444-448: from numerator and denominator *)
Definition mR_neg (a : rational) : M rational := _ ← mp_rat_neg a a; mret a.
Definition mR_canonicalize (c : rational) : M unit := mp_rat_reduce c.
Definition mR_of_ints (num den : integer) : M rational :=
  n ← mI_copy num; d ← mI_copy den; c ← mR_new;
  _ ← mI_move_assign (ro_num c) n; _ ← mI_move_assign (ro_den c) d; _ ← mR_canonicalize c; mret c.
(** 498-528: addition *)
Definition mR_add_cz (a : rational) (b : integer) : M rational := c ← mR_new; _ ← mp_rat_add_int a b c; mret c.
Definition mR_add_cs (a : rational) (b : Z) : M rational := t ← mI_of b; mR_add_cz a t.
Definition mR_add_cc (a b : rational) : M rational := c ← mR_new; _ ← mp_rat_add a b c; mret c.
Definition mR_add_ez (a : rational) (b : integer) : M rational := _ ← mp_rat_add_int a b a; mret a.
Definition mR_add_es (a : rational) (b : Z) : M rational := t ← mI_of b; mR_add_ez a t.
Definition mR_add_ec (a b : rational) : M rational := _ ← mp_rat_add a b a; mret a.
Definition mR_add_ms (a : rational) (b : Z) : M rational := r ← mR_add_es a b; mR_move r.
Definition mR_add_mz (a : rational) (b : integer) : M rational := r ← mR_add_ez a b; mR_move r.
Definition mR_add_mc (a b : rational) : M rational := r ← mR_add_ec a b; mR_move r.
(** 532-535: unary minus *)
Definition mR_opp (a : rational) : M rational := p ← mR_copy a; _ ← mR_neg p; mR_move p.
(** 537-567: subtraction *)
Definition mR_sub_cz (a : rational) (b : integer) : M rational := c ← mR_new; _ ← mp_rat_sub_int a b c; mret c.
Definition mR_sub_cs (a : rational) (b : Z) : M rational := t ← mI_of b; mR_sub_cz a t.
Definition mR_sub_cc (a b : rational) : M rational := c ← mR_new; _ ← mp_rat_sub a b c; mret c.
Definition mR_sub_ez (a : rational) (b : integer) : M rational := _ ← mp_rat_sub_int a b a; mret a.
Definition mR_sub_es (a : rational) (b : Z) : M rational := t ← mI_of b; mR_sub_ez a t.
Definition mR_sub_ec (a b : rational) : M rational := _ ← mp_rat_sub a b a; mret a.
Definition mR_sub_ms (a : rational) (b : Z) : M rational := r ← mR_sub_es a b; mR_move r.
Definition mR_sub_mz (a : rational) (b : integer) : M rational := r ← mR_sub_ez a b; mR_move r.
Definition mR_sub_mc (a b : rational) : M rational := r ← mR_sub_ec a b; mR_move r.
(** 571-601: multiplication *)
Definition mR_mul_cz (a : rational) (b : integer) : M rational := c ← mR_new; _ ← mp_rat_mul_int a b c; mret c.
Definition mR_mul_cs (a : rational) (b : Z) : M rational := t ← mI_of b; mR_mul_cz a t.
Definition mR_mul_cc (a b : rational) : M rational := c ← mR_new; _ ← mp_rat_mul a b c; mret c.
Definition mR_mul_ez (a : rational) (b : integer) : M rational := _ ← mp_rat_mul_int a b a; mret a.
Definition mR_mul_es (a : rational) (b : Z) : M rational := t ← mI_of b; mR_mul_ez a t.
Definition mR_mul_ec (a b : rational) : M rational := _ ← mp_rat_mul a b a; mret a.
Definition mR_mul_ms (a : rational) (b : Z) : M rational := r ← mR_mul_es a b; mR_move r.
Definition mR_mul_mz (a : rational) (b : integer) : M rational := r ← mR_mul_ez a b; mR_move r.
Definition mR_mul_mc (a b : rational) : M rational := r ← mR_mul_ec a b; mR_move r.
(** 605-635: division *)
Definition mR_div_cz (a : rational) (b : integer) : M rational := c ← mR_new; _ ← mp_rat_div_int a b c; mret c.
Definition mR_div_cs (a : rational) (b : Z) : M rational := t ← mI_of b; mR_div_cz a t.
Definition mR_div_cc (a b : rational) : M rational := c ← mR_new; _ ← mp_rat_div a b c; mret c.
Definition mR_div_ez (a : rational) (b : integer) : M rational := _ ← mp_rat_div_int a b a; mret a.
Definition mR_div_es (a : rational) (b : Z) : M rational := t ← mI_of b; mR_div_ez a t.
Definition mR_div_ec (a b : rational) : M rational := _ ← mp_rat_div a b a; mret a.
Definition mR_div_ms (a : rational) (b : Z) : M rational := r ← mR_div_es a b; mR_move r.
Definition mR_div_mz (a : rational) (b : integer) : M rational := r ← mR_div_ez a b; mR_move r.
Definition mR_div_mc (a b : rational) : M rational := r ← mR_div_ec a b; mR_move r.
(** 704-713: comparison *)
Definition mR_compare_s (a : rational) (b : Z) : M Z := mp_rat_compare_value a b.
Definition mR_compare_c (a b : rational) : M Z := mp_rat_compare a b.
Definition mR_compare_z (a : rational) (b : integer) : M Z := one ← mI_of 1; t ← mR_of_ints b one; mR_compare_c a t.

(** ** Overload resolution *)
Inductive library := Flint (old : bool) | Imath.
Inductive aop := Add | Sub | Mul | Div.
(** [a op b] with an lvalue, [std::move(a) op b], [a op= b] *)
Inductive form := Copy | Move | Assign.
Inductive arg := Fixed (v : Z) | AnInt (i : integer) | ARat (o : rational).

(** None: there is no such overload. *)
Definition call_I (L : library) (f : form) (op : aop) (a : integer) (b : arg) : option (M integer) :=
  match L, op, f, b with
  | Flint old, Add, Copy, Fixed v => Some (fI_add_cs old a v)
  | Flint old, Add, Move, Fixed v => Some (fI_add_ms old a v)
  | Flint old, Add, Assign, Fixed v => Some (fI_add_es old a v)
  | Flint old, Add, Copy, AnInt i => Some (fI_add_cc a i)
  | Flint old, Add, Move, AnInt i => Some (fI_add_mc a i)
  | Flint old, Add, Assign, AnInt i => Some (fI_add_ec a i)
  | Flint old, Sub, Copy, Fixed v => Some (fI_sub_cs old a v)
  | Flint old, Sub, Move, Fixed v => Some (fI_sub_ms old a v)
  | Flint old, Sub, Assign, Fixed v => Some (fI_sub_es old a v)
  | Flint old, Sub, Copy, AnInt i => Some (fI_sub_cc a i)
  | Flint old, Sub, Move, AnInt i => Some (fI_sub_mc a i)
  | Flint old, Sub, Assign, AnInt i => Some (fI_sub_ec a i)
  | Flint old, Mul, Copy, Fixed v => Some (fI_mul_cs a v)
  | Flint old, Mul, Move, Fixed v => Some (fI_mul_ms a v)
  | Flint old, Mul, Assign, Fixed v => Some (fI_mul_es a v)
  | Flint old, Mul, Copy, AnInt i => Some (fI_mul_cc a i)
  | Flint old, Mul, Move, AnInt i => Some (fI_mul_mc a i)
  | Flint old, Mul, Assign, AnInt i => Some (fI_mul_ec a i)
  | Imath, Add, Copy, Fixed v => Some (mI_add_cs a v)
  | Imath, Add, Move, Fixed v => Some (mI_add_ms a v)
  | Imath, Add, Assign, Fixed v => Some (mI_add_es a v)
  | Imath, Add, Copy, AnInt i => Some (mI_add_cc a i)
  | Imath, Add, Move, AnInt i => Some (mI_add_mc a i)
  | Imath, Add, Assign, AnInt i => Some (mI_add_ec a i)
  | Imath, Sub, Copy, Fixed v => Some (mI_sub_cs a v)
  | Imath, Sub, Move, Fixed v => Some (mI_sub_ms a v)
  | Imath, Sub, Assign, Fixed v => Some (mI_sub_es a v)
  | Imath, Sub, Copy, AnInt i => Some (mI_sub_cc a i)
  | Imath, Sub, Move, AnInt i => Some (mI_sub_mc a i)
  | Imath, Sub, Assign, AnInt i => Some (mI_sub_ec a i)
  | Imath, Mul, Copy, Fixed v => Some (mI_mul_cs a v)
  | Imath, Mul, Move, Fixed v => Some (mI_mul_ms a v)
  | Imath, Mul, Assign, Fixed v => Some (mI_mul_es a v)
  | Imath, Mul, Copy, AnInt i => Some (mI_mul_cc a i)
  | Imath, Mul, Move, AnInt i => Some (mI_mul_mc a i)
  | Imath, Mul, Assign, AnInt i => Some (mI_mul_ec a i)
  | _, _, _, _ => None
  end.

Definition call_R (L : library) (f : form) (op : aop) (a : rational) (b : arg) : M rational :=
  match L, op, f, b with
  | Flint old, Add, Copy, Fixed v => fR_add_cs old a v
  | Flint old, Add, Move, Fixed v => fR_add_ms a v
  | Flint old, Add, Assign, Fixed v => fR_add_es a v
  | Flint old, Add, Copy, AnInt i => fR_add_cz a i
  | Flint old, Add, Move, AnInt i => fR_add_mz a i
  | Flint old, Add, Assign, AnInt i => fR_add_ez a i
  | Flint old, Add, Copy, ARat o => fR_add_cc a o
  | Flint old, Add, Move, ARat o => fR_add_mc a o
  | Flint old, Add, Assign, ARat o => fR_add_ec a o
  | Flint old, Sub, Copy, Fixed v => fR_sub_cs old a v
  | Flint old, Sub, Move, Fixed v => fR_sub_ms a v
  | Flint old, Sub, Assign, Fixed v => fR_sub_es a v
  | Flint old, Sub, Copy, AnInt i => fR_sub_cz a i
  | Flint old, Sub, Move, AnInt i => fR_sub_mz a i
  | Flint old, Sub, Assign, AnInt i => fR_sub_ez a i
  | Flint old, Sub, Copy, ARat o => fR_sub_cc a o
  | Flint old, Sub, Move, ARat o => fR_sub_mc a o
  | Flint old, Sub, Assign, ARat o => fR_sub_ec a o
  | Flint old, Mul, Copy, Fixed v => fR_mul_cs old a v
  | Flint old, Mul, Move, Fixed v => fR_mul_ms old a v
  | Flint old, Mul, Assign, Fixed v => fR_mul_es old a v
  | Flint old, Mul, Copy, AnInt i => fR_mul_cz a i
  | Flint old, Mul, Move, AnInt i => fR_mul_mz a i
  | Flint old, Mul, Assign, AnInt i => fR_mul_ez a i
  | Flint old, Mul, Copy, ARat o => fR_mul_cc a o
  | Flint old, Mul, Move, ARat o => fR_mul_mc a o
  | Flint old, Mul, Assign, ARat o => fR_mul_ec a o
  | Flint old, Div, Copy, Fixed v => fR_div_cs a v
  | Flint old, Div, Move, Fixed v => fR_div_ms a v
  | Flint old, Div, Assign, Fixed v => fR_div_es a v
  | Flint old, Div, Copy, AnInt i => fR_div_cz a i
  | Flint old, Div, Move, AnInt i => fR_div_mz a i
  | Flint old, Div, Assign, AnInt i => fR_div_ez a i
  | Flint old, Div, Copy, ARat o => fR_div_cc a o
  | Flint old, Div, Move, ARat o => fR_div_mc a o
  | Flint old, Div, Assign, ARat o => fR_div_ec a o
  | Imath, Add, Copy, Fixed v => mR_add_cs a v
  | Imath, Add, Move, Fixed v => mR_add_ms a v
  | Imath, Add, Assign, Fixed v => mR_add_es a v
  | Imath, Add, Copy, AnInt i => mR_add_cz a i
  | Imath, Add, Move, AnInt i => mR_add_mz a i
  | Imath, Add, Assign, AnInt i => mR_add_ez a i
  | Imath, Add, Copy, ARat o => mR_add_cc a o
  | Imath, Add, Move, ARat o => mR_add_mc a o
  | Imath, Add, Assign, ARat o => mR_add_ec a o
  | Imath, Sub, Copy, Fixed v => mR_sub_cs a v
  | Imath, Sub, Move, Fixed v => mR_sub_ms a v
  | Imath, Sub, Assign, Fixed v => mR_sub_es a v
  | Imath, Sub, Copy, AnInt i => mR_sub_cz a i
  | Imath, Sub, Move, AnInt i => mR_sub_mz a i
  | Imath, Sub, Assign, AnInt i => mR_sub_ez a i
  | Imath, Sub, Copy, ARat o => mR_sub_cc a o
  | Imath, Sub, Move, ARat o => mR_sub_mc a o
  | Imath, Sub, Assign, ARat o => mR_sub_ec a o
  | Imath, Mul, Copy, Fixed v => mR_mul_cs a v
  | Imath, Mul, Move, Fixed v => mR_mul_ms a v
  | Imath, Mul, Assign, Fixed v => mR_mul_es a v
  | Imath, Mul, Copy, AnInt i => mR_mul_cz a i
  | Imath, Mul, Move, AnInt i => mR_mul_mz a i
  | Imath, Mul, Assign, AnInt i => mR_mul_ez a i
  | Imath, Mul, Copy, ARat o => mR_mul_cc a o
  | Imath, Mul, Move, ARat o => mR_mul_mc a o
  | Imath, Mul, Assign, ARat o => mR_mul_ec a o
  | Imath, Div, Copy, Fixed v => mR_div_cs a v
  | Imath, Div, Move, Fixed v => mR_div_ms a v
  | Imath, Div, Assign, Fixed v => mR_div_es a v
  | Imath, Div, Copy, AnInt i => mR_div_cz a i
  | Imath, Div, Move, AnInt i => mR_div_mz a i
  | Imath, Div, Assign, AnInt i => mR_div_ez a i
  | Imath, Div, Copy, ARat o => mR_div_cc a o
  | Imath, Div, Move, ARat o => mR_div_mc a o
  | Imath, Div, Assign, ARat o => mR_div_ec a o
  end.

(** The relational operators are defined by compare and ==. *)
Inductive rop := OLt | OLe | OGt | OGe | OEq | ONe.
(** number_flint.hh 698-756, number_imath.hh 639-683 *)
Definition rel_R (L : library) (r : rop) (a : rational) (b : arg) : M bool :=
  let cmp := match L, b with
             | Flint old, Fixed v => fR_compare_s old a v
             | Flint old, AnInt i => fR_compare_z old a i
             | Flint old, ARat o => fR_compare_c a o
             | Imath, Fixed v => mR_compare_s a v
             | Imath, AnInt i => mR_compare_z a i
             | Imath, ARat o => mR_compare_c a o
             end in
  let eq := match L, b with
            | Flint old, Fixed v => fR_eq_s old a v
            | Flint old, AnInt i => fR_eq_z old a i
            | Flint old, ARat o => fR_eq_c a o
            | Imath, _ => c ← cmp; mret (c =? 0)%Z
            end in
  match r with
  | OLt => c ← cmp; mret (c <? 0)%Z
  | OLe => c ← cmp; mret (c <=? 0)%Z
  | OGt => c ← cmp; mret (0 <? c)%Z
  | OGe => c ← cmp; mret (0 <=? c)%Z
  | OEq => eq
  | ONe => match L with
           | Flint _ => e ← eq; mret (negb e)
           | Imath => c ← cmp; mret (negb (c =? 0)%Z)
           end
  end.
(** number_flint.hh 364-398, number_imath.hh 360-392: for Integer, except the
    ordering of two Integers with FLINT, which is the subject of C38. *)
Definition rel_I (L : library) (r : rop) (a : integer) (b : arg) : option (M bool) :=
  let by_sign (cmp : M Z) (eq ne : M bool) :=
    match r with
    | OLt => c ← cmp; mret (c <? 0)%Z
    | OLe => c ← cmp; mret (c <=? 0)%Z
    | OGt => c ← cmp; mret (0 <? c)%Z
    | OGe => c ← cmp; mret (0 <=? c)%Z
    | OEq => eq
    | ONe => ne
    end in
  match L, b with
  | Flint _, Fixed v => Some (by_sign (fI_compare_s a v) (fI_eq_s a v) (e ← fI_eq_s a v; mret (negb e)))
  | Flint _, AnInt i => match r with
                        | OEq => Some (fI_eq_c a i)
                        | ONe => Some (e ← fI_eq_c a i; mret (negb e))
                        | _ => None
                        end
  | Imath, Fixed v => Some (by_sign (mI_compare_s a v) (c ← mI_compare_s a v; mret (c =? 0)%Z) (c ← mI_compare_s a v; mret (negb (c =? 0)%Z)))
  | Imath, AnInt i => Some (by_sign (mI_compare_c a i) (c ← mI_compare_c a i; mret (c =? 0)%Z) (c ← mI_compare_c a i; mret (negb (c =? 0)%Z)))
  | _, ARat _ => None
  end.

(** The other members. *)
Definition new_I L : M integer := match L with Flint _ => fI_new | Imath => mI_new end.
Definition of_I L (v : Z) : M integer := match L with Flint _ => fI_of v | Imath => mI_of v end.
Definition copy_I L (a : integer) : M integer := match L with Flint _ => fI_copy a | Imath => mI_copy a end.
Definition move_I L (a : integer) : M integer := match L with Flint _ => fI_move a | Imath => mI_move a end.
Definition assign_I L (c a : integer) : M integer := match L with Flint _ => fI_assign c a | Imath => mI_assign c a end.
Definition move_assign_I L (c a : integer) : M integer := match L with Flint _ => fI_move_assign c a | Imath => mI_move_assign c a end.
Definition neg_I L (a : integer) : M integer := match L with Flint _ => fI_neg a | Imath => mI_neg a end.
Definition opp_I L (a : integer) : M integer := match L with Flint _ => fI_opp a | Imath => mI_opp a end.
Definition add_mul_I L (c a b : integer) : M integer := match L with Flint _ => fI_add_mul c a b | Imath => mI_add_mul c a b end.
Definition add_mul_mI L (c a b : integer) : M integer := match L with Flint _ => fI_add_mul_m c a b | Imath => mI_add_mul_m c a b end.
Definition gcd_I L (a b : integer) : M integer := match L with Flint _ => fI_gcd a b | Imath => mI_gcd a b end.
Definition new_R L : M rational := match L with Flint _ => fR_new | Imath => mR_new end.
Definition of_R L (v : Z) : M rational := match L with Flint _ => fR_of v | Imath => mR_of v end.
Definition of_ints_R L (n d : integer) : M rational := match L with Flint _ => fR_of_ints n d | Imath => mR_of_ints n d end.
Definition copy_R L (a : rational) : M rational := match L with Flint _ => fR_copy a | Imath => mR_copy a end.
Definition move_R L (a : rational) : M rational := match L with Flint _ => fR_move a | Imath => mR_move a end.
Definition assign_R L (c a : rational) : M rational := match L with Flint _ => fR_assign c a | Imath => mR_assign c a end.
Definition move_assign_R L (c a : rational) : M rational := match L with Flint _ => fR_move_assign c a | Imath => mR_move_assign c a end.
Definition neg_R L (a : rational) : M rational := match L with Flint _ => fR_neg a | Imath => mR_neg a end.
Definition opp_R L (a : rational) : M rational := match L with Flint _ => fR_opp a | Imath => mR_opp a end.

(** as_int, number_flint.hh 245-253, number_imath.hh 257-265: fmpz_fits_si and
    mp_int_to_int succeed exactly for numbers that fit a long, here of [bits]+1
    bits (31 or 63).  numeric_limits<int> is that of 32 bits. *)
Definition as_int (bits : Z) (a : integer) : M (option Z) :=
  x ← rdz a;
  mret (if (- 2 ^ bits <=? x)%Z && (x <? 2 ^ bits)%Z then
          (if (-2147483648 <=? x)%Z && (x <=? 2147483647)%Z then Some x else None)
        else None).
