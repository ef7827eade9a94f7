(** * The tableau over the two arithmetic libraries
      (number_flint.hh, number_imath.hh, tableau.cc)

    Tableau.v divides in [Z].  The code divides with the function of the library
    it was compiled with, and these agree only where a division has no
    remainder.  This file models the operations of the tableau again, with the
    divisions the wrappers perform. *)

From Verif Require Import Num Tableau.

(** Integer::divide and the two divisions of gcd_div.  The greatest common
    divisor is that of [Z] in both libraries, and gcd(0, 0) leaves the freshly
    initialised result 0 (mp_int_gcd reports MP_UNDEF, which gcd ignores). *)
Record backend := Backend {
  b_divide : Z -> Z -> res Z;   (** the new value of [*this] in [this->divide(a)] *)
  b_into : Z -> Z -> res Z      (** the quotient stored in a fresh Integer by gcd_div *)
}.

(** number_flint.hh 226-229 and 425-431: fmpz_divexact.  "If the division is not
    exact the result is undefined"; division by zero aborts. *)
Definition divexact (a b : Z) : res Z :=
  if (b =? 0)%Z then UB else if (Z.rem a b =? 0)%Z then Ok (Z.quot a b) else UB.
Definition Flint_ops : backend := Backend divexact divexact.

(** number_imath.hh 243-246 and 420-426: mp_int_div, which truncates.  Its error
    for a division by zero is ignored: the destination keeps its value, the
    dividend for divide and 0 for gcd_div. *)
Definition Imath_ops : backend :=
  Backend (fun a b => Ok (if (b =? 0)%Z then a else Z.quot a b))
          (fun a b => Ok (if (b =? 0)%Z then 0%Z else Z.quot a b)).

(** Any library that is right about divisions without remainder and arbitrary otherwise. *)
Definition Any_ops (junk junk' : Z -> Z -> res Z) : backend :=
  let exact a b := negb (b =? 0)%Z && (Z.rem a b =? 0)%Z in
  Backend (fun a b => if exact a b then Ok (Z.quot a b) else junk a b)
          (fun a b => if exact a b then Ok (Z.quot a b) else junk' a b).

Section ops.
  Variable B : backend.

  (** gcd_div, number_flint.hh 425-431, number_imath.hh 420-426. *)
  Definition b_gcd_div (a b : Z) : res (Z * Z * Z) :=
    let g := Z.gcd a b in x ← b_into B a g; y ← b_into B b g; Ok (g, x, y).

  (** tableau.cc 38-55, see [set_row]. *)
  Definition b_set_row (r : row) (j : nat) (a : Qc) : res row :=
    let p := lb j (r_cells r) in
    '(_, ag, rg) ← b_gcd_div (Zpos (Qden a)) (r_den r);
    let v := (Qnum a * rg)%Z in
    let cells := match r_cells r !! p with
                 | Some (c, _) => if c =? j then <[p := (c, v)]> (r_cells r)
                                  else insert_at p (j, v) (r_cells r)
                 | None => insert_at p (j, v) (r_cells r)
                 end in
    if (ag =? 1)%Z then Ok (Row (r_den r) cells)
    else Ok (Row (r_den r * ag)%Z
                 (imap (fun q (c : cell) => if q =? p then c else (c.1, (c.2 * ag)%Z)) cells)).

  (** Tableau::set, tableau.cc 25-62, see [tset]. *)
  Definition b_set (t : tableau) (i j : nat) (a : Qc) : res tableau :=
    if Qc_eq_bool a 0 then
      match t_rows t !! i with
      | Some r =>
          let p := lb j (r_cells r) in
          match r_cells r !! p with
          | Some (c, _) => if c =? j
                           then Ok (Tab (<[i := Row (r_den r) (delete p (r_cells r))]> (t_rows t)) (t_cols t))
                           else Ok t
          | None => Ok t
          end
      | None => Ok t
      end
    else
      let t1 := reserve_row t i in
      r ← at_ (t_rows t1) i;
      r' ← b_set_row r j a;
      let t2 := Tab (<[i := r']> (t_rows t1)) (t_cols t1) in
      let t3 := reserve_col t2 j in
      Ok (Tab (t_rows t3) (alter (col_insert i) j (t_cols t3))).

  (** The second loop of Tableau::simplify_, tableau.cc 77-80. *)
  Fixpoint b_divide_cells (g : Z) (cells : list cell) : res (list cell) :=
    match cells with
    | [] => Ok []
    | (c, v) :: r => v' ← b_divide B v g; r' ← b_divide_cells g r; Ok ((c, v') :: r')
    end.
  (** Tableau::simplify_, tableau.cc 65-82. *)
  Definition b_simplify_row (r : row) : res row :=
    if (r_den r =? 1)%Z then Ok r
    else match row_gcd (r_den r) (r_cells r) with
         | None => Ok r
         | Some g => cells ← b_divide_cells g (r_cells r); d ← b_divide B (r_den r) g; Ok (Row d cells)
         end.

  (** The function passed to update_col in Tableau::pivot (tableau.cc 104-149), see [pivot_row]. *)
  Definition b_pivot_row (i j : nat) (Ai : list cell) (a_ij d_i : Z)
      (k : nat) (a_kj d_k : Z) (s : pstate) : res pstate :=
    if k =? i then Ok s else
    '(_, ga_ij, ga_kj) ← b_gcd_div a_ij a_kj;
    rk ← at_ (t_rows (p_tab s)) k;
    let acc := merge j ga_ij ga_kj Ai 0 (r_cells rk) (MAcc [] 0 d_k []) in
    c ← at_ (m_row acc) (m_piv acc);
    rk' ← b_simplify_row (Row (m_den acc) (<[m_piv acc := (c.1, (ga_kj * d_i)%Z)]> (m_row acc)));
    s' ← apply_ins k (m_ins acc) s;
    Ok (PState (Tab (<[k := rk']> (t_rows (p_tab s'))) (t_cols (p_tab s'))) (p_sizes s')).

  (** Tableau::pivot, tableau.cc 84-187, see [tpivot]. *)
  Definition b_pivot (t : tableau) (i j p : nat) : res tableau :=
    ri ← at_ (t_rows t) i;
    let d_i := r_den ri in
    let Ai := map (fun c : cell => if c.1 =? j then c else (c.1, (- c.2)%Z)) (r_cells ri) in
    let t1 := Tab (<[i := Row d_i Ai]> (t_rows t)) (t_cols t) in
    aij ← at_ Ai p;
    s ← update_col p_tab (fun t' s => PState t' (p_sizes s)) j
          (b_pivot_row i j Ai aij.2 d_i) (PState t1 (replicate (length Ai) 0));
    ri' ← b_simplify_row (Row aij.2 (<[p := (aij.1, d_i)]> Ai));
    let t2 := Tab (<[i := ri']> (t_rows (p_tab s))) (t_cols (p_tab s)) in
    sort_cols (r_cells ri') (p_sizes s) t2.
End ops.
