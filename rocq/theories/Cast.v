(** * util.hh: safe_cast *)

From Coq Require Import ZArith Lia.
From Verif Require Import Num.
Open Scope Z_scope.

(** An integer type of C++: its signedness and number of bits. *)
Record ctype := CType { ct_signed : bool; ct_bits : Z }.
(** std::numeric_limits<T>::min() and max() *)
Definition tmin (t : ctype) : Z := if ct_signed t then - 2 ^ (ct_bits t - 1) else 0.
Definition tmax (t : ctype) : Z := if ct_signed t then 2 ^ (ct_bits t - 1) - 1 else 2 ^ ct_bits t - 1.
(** static_cast<T>: the value modulo 2^bits (for signed types required since
    C++20, before that what all compilers do) *)
Definition conv (t : ctype) (z : Z) : Z := (z - tmin t) mod 2 ^ ct_bits t + tmin t.
(** std::make_unsigned *)
Definition unsigned_of (t : ctype) : ctype := CType false (ct_bits t).

Section cast.
  Context (int_bits : Z).   (* the width of int *)
  Definition int_type : ctype := CType true int_bits.
  (** the integral promotions and the usual arithmetic conversions applied to
      the operands of a comparison *)
  Definition promote (t : ctype) : ctype :=
    if (if ct_signed t then ct_bits t <=? int_bits else ct_bits t <? int_bits) then int_type else t.
  Definition common (a b : ctype) : ctype :=
    let a := promote a in let b := promote b in
    if Bool.eqb (ct_signed a) (ct_signed b) then CType (ct_signed a) (Z.max (ct_bits a) (ct_bits b))
    else let '(u, s) := if ct_signed a then (b, a) else (a, b) in
         if ct_bits s <=? ct_bits u then u else s.
  Definition c_lt (a : ctype) (x : Z) (b : ctype) (y : Z) : bool := let c := common a b in conv c x <? conv c y.
  Definition c_ne (a : ctype) (x : Z) (b : ctype) (y : Z) : bool := let c := common a b in negb (conv c x =? conv c y).

  (** detail::sc_check, util.hh 15-34; [same]: std::is_same<T, S>.  true: it
      throws. *)
  Definition sc_check (same : bool) (T S : ctype) (s : Z) : bool :=
    match ct_signed T, ct_signed S with
    | true, true | false, false => negb same && (c_lt S s T (tmin T) || c_lt T (tmax T) S s)
    | false, true => c_lt S s int_type 0 || c_ne S (conv S (conv T s)) S s
    | true, false => c_lt (unsigned_of T) (conv (unsigned_of T) (tmax T)) S s
    end.
  (** safe_cast, util.hh 38-43 *)
  Definition safe_cast (same : bool) (T S : ctype) (s : Z) : res Z :=
    if sc_check same T S s then Exn else Ok (conv T s).
End cast.
