(** * The sparse tableau: model of tableau.hh and tableau.cc *)

From Verif Require Import Num.

(** struct Cell { index_t col; Integer val; }  (tableau.hh 119-129). *)
Notation cell := (nat * Z)%type.
(** struct Row { Integer den = 1; std::vector<Cell> cells; }  (tableau.hh 130-133). *)
Record row := Row { r_den : Z; r_cells : list cell }.
(** class Tableau { std::vector<Row> rows_; std::vector<std::vector<index_t>> cols_; }
    (tableau.hh 139-140). *)
Record tableau := Tab { t_rows : list row; t_cols : list (list nat) }.

Definition empty_row : row := Row 1 [].
Definition empty_tab : tableau := Tab [] [].

(** std::lower_bound(cells.begin(), cells.end(), j): the first position whose
    column is not less than [j].  (Simplification: the binary search is modelled
    by a linear scan; both return the partition point of a sorted range.) *)
Fixpoint lb (j : nat) (cells : list cell) : nat :=
  match cells with
  | [] => 0
  | (c, _) :: r => if c <? j then S (lb j r) else 0
  end.
(** the same on a vector of row indices (tableau.cc 58, 210). *)
Fixpoint lbn (j : nat) (l : list nat) : nat :=
  match l with
  | [] => 0
  | c :: r => if c <? j then S (lbn j r) else 0
  end.

(** The pattern [it != end && it->col == j] (tableau.cc 11, tableau.hh 81). *)
Definition clook (cells : list cell) (j : nat) : option Z :=
  match cells !! lb j cells with
  | Some (c, v) => if c =? j then Some v else None
  | None => None
  end.

Global Arguments clook : simpl never.

(** vector::emplace at a position / vector::erase *)
Definition insert_at {A} (p : nat) (x : A) (l : list A) : list A := take p l ++ x :: drop p l.

(** Tableau::get, tableau.cc 7-16. *)
Definition tget (t : tableau) (i j : nat) : Qc :=
  match t_rows t !! i with
  | Some r => match clook (r_cells r) j with
              | Some v => qmk v (r_den r)
              | None => 0%Qc
              end
  | None => 0%Qc
  end.

(** Tableau::unsafe_get, tableau.cc 18-22: returns the position of the cell in
    its row (the pointers num and den of the C++ code point to this cell and to
    the denominator of row i), the value of the cell and the denominator.
    A missing row, or dereferencing end(), is undefined behaviour. *)
Definition unsafe_get (t : tableau) (i j : nat) : res (nat * Z * Z) :=
  r ← at_ (t_rows t) i;
  c ← at_ (r_cells r) (lb j (r_cells r));
  Ok (lb j (r_cells r), c.2, r_den r).

(** vector::resize(n) growing with default elements (tableau.cc 213-225). *)
Definition grow {A} (d : A) (n : nat) (l : list A) : list A :=
  l ++ replicate (n - length l) d.
(** Tableau::reserve_row_, tableau.cc 213-218. *)
Definition reserve_row (t : tableau) (i : nat) : tableau :=
  Tab (grow empty_row (S i) (t_rows t)) (t_cols t).
(** Tableau::reserve_col_, tableau.cc 219-224. *)
Definition reserve_col (t : tableau) (j : nat) : tableau :=
  Tab (t_rows t) (grow [] (S j) (t_cols t)).

(** The part of Tableau::set that changes the row (tableau.cc 38-55).
    gcd_div(a.den(), r.den) is number_flint.hh 425-431. *)
Definition set_row (r : row) (j : nat) (a : Qc) : row :=
  let p := lb j (r_cells r) in
  let g := Z.gcd (Zpos (Qden a)) (r_den r) in
  let ag := (Zpos (Qden a) / g)%Z in
  let rg := (r_den r / g)%Z in
  let v := (Qnum a * rg)%Z in
  let cells := match r_cells r !! p with
               | Some (c, _) => if c =? j then <[p := (c, v)]> (r_cells r)
                                else insert_at p (j, v) (r_cells r)
               | None => insert_at p (j, v) (r_cells r)
               end in
  if (ag =? 1)%Z then Row (r_den r) cells
  else Row (r_den r * ag)%Z
           (imap (fun q (c : cell) => if q =? p then c else (c.1, (c.2 * ag)%Z)) cells).

(** Insert into a sorted column unless present (tableau.cc 56-60). *)
Definition col_insert (i : nat) (col : list nat) : list nat :=
  let p := lbn i col in
  match col !! p with
  | Some k => if k =? i then col else insert_at p i col
  | None => insert_at p i col
  end.

(** Tableau::set, tableau.cc 25-62. *)
Definition tset (t : tableau) (i j : nat) (a : Qc) : tableau :=
  if Qc_eq_bool a 0 then
    match t_rows t !! i with
    | Some r =>
        let p := lb j (r_cells r) in
        match r_cells r !! p with
        | Some (c, _) => if c =? j
                         then Tab (<[i := Row (r_den r) (delete p (r_cells r))]> (t_rows t)) (t_cols t)
                         else t
        | None => t
        end
    | None => t
    end
  else
    let t1 := reserve_row t i in
    let t2 := Tab (alter (fun r => set_row r j a) i (t_rows t1)) (t_cols t1) in
    let t3 := reserve_col t2 j in
    Tab (t_rows t3) (alter (col_insert i) j (t_cols t3)).

(** Tableau::update_row, tableau.hh 59-66: [f] is called with the column, the
    value and the denominator of each cell, threading a state. *)
Fixpoint row_loop {S} (f : nat -> Z -> Z -> S -> res S) (d : Z) (cells : list cell) (s : S) : res S :=
  match cells with
  | [] => Ok s
  | (c, v) :: r => s' ← f c v d s; row_loop f d r s'
  end.
Definition update_row {S} (t : tableau) (i : nat) (f : nat -> Z -> Z -> S -> res S) (s : S) : res S :=
  match t_rows t !! i with
  | Some r => row_loop f (r_den r) (r_cells r) s
  | None => Ok s
  end.

(** Tableau::update_col, tableau.hh 73-92.  The state [S] may contain the
    tableau itself ([rd] reads it), because Tableau::pivot modifies rows while
    iterating.  Entries of the column vector whose cell does not exist any more
    are dropped: the C++ code compacts the vector in place with iter_swap and
    erase, which is modelled by returning the list of kept entries. *)
Fixpoint col_loop {S} (rd : S -> tableau) (j : nat) (f : nat -> Z -> Z -> S -> res S)
    (is : list nat) (kept : list nat) (s : S) : res (list nat * S) :=
  match is with
  | [] => Ok (kept, s)
  | i :: is' =>
      r ← at_ (t_rows (rd s)) i;
      match clook (r_cells r) j with
      | Some v => s' ← f i v (r_den r) s; col_loop rd j f is' (kept ++ [i]) s'
      | None => col_loop rd j f is' kept s
      end
  end.
Definition set_col (t : tableau) (j : nat) (col : list nat) : tableau :=
  Tab (t_rows t) (<[j := col]> (t_cols t)).
Definition update_col {S} (rd : S -> tableau) (wr : tableau -> S -> S) (j : nat)
    (f : nat -> Z -> Z -> S -> res S) (s : S) : res S :=
  match t_cols (rd s) !! j with
  | Some col =>
      '(kept, s') ← col_loop rd j f col [] s;
      Ok (wr (set_col (rd s') j kept) s')
  | None => Ok s
  end.

(** Tableau::simplify_, tableau.cc 65-82; [None] is the early return. *)
Fixpoint row_gcd (g : Z) (cells : list cell) : option Z :=
  match cells with
  | [] => Some g
  | (_, v) :: r => let g' := Z.gcd v g in if (g' =? 1)%Z then None else row_gcd g' r
  end.
Definition simplify_row (r : row) : res row :=
  if (r_den r =? 1)%Z then Ok r
  else match row_gcd (r_den r) (r_cells r) with
       | None => Ok r
       | Some g =>
           _ ← guard_ub (negb (g =? 0)%Z);
           Ok (Row (r_den r / g)%Z (map (fun c : cell => (c.1, (c.2 / g)%Z)) (r_cells r)))
       end.

(** State of the merge loop in Tableau::pivot (tableau.cc 108-142): the new
    row, the pivot index, the denominator d_k, and the positions/columns of row
    i that were newly inserted into row k (the C++ code updates cols_ and sizes
    immediately; nothing in the loop reads them, so the model applies the
    updates after the loop, see [pivot_row]). *)
Record macc := MAcc { m_row : list cell; m_piv : nat; m_den : Z; m_ins : list (nat * nat) }.

(** The merge loop, tableau.cc 108-142. *)
Fixpoint merge (j : nat) (ga_ij ga_kj : Z) (Ai : list cell) (pos : nat)
    : list cell -> macc -> macc :=
  fix inner (Ak : list cell) (acc : macc) : macc :=
    match Ai with
    | [] =>
        match Ak with
        | [] => acc
        | (c, v) :: Ak' =>
            inner Ak' (MAcc (m_row acc ++ [(c, (v * ga_ij)%Z)]) (m_piv acc) (m_den acc) (m_ins acc))
        end
    | (c, v) :: Ai' =>
        match Ak with
        | [] =>
            merge j ga_ij ga_kj Ai' (S pos) []
              (MAcc (m_row acc ++ [(c, (ga_kj * v)%Z)]) (m_piv acc) (m_den acc) (m_ins acc ++ [(pos, c)]))
        | (c', v') :: Ak' =>
            if c <? c' then
              merge j ga_ij ga_kj Ai' (S pos) Ak
                (MAcc (m_row acc ++ [(c, (ga_kj * v)%Z)]) (m_piv acc) (m_den acc) (m_ins acc ++ [(pos, c)]))
            else if c' <? c then
              inner Ak' (MAcc (m_row acc ++ [(c', (v' * ga_ij)%Z)]) (m_piv acc) (m_den acc) (m_ins acc))
            else if negb (c' =? j) then
              let x := (v' * ga_ij + ga_kj * v)%Z in
              merge j ga_ij ga_kj Ai' (S pos) Ak'
                (MAcc (if (x =? 0)%Z then m_row acc else m_row acc ++ [(c', x)])
                      (m_piv acc) (m_den acc) (m_ins acc))
            else
              merge j ga_ij ga_kj Ai' (S pos) Ak'
                (MAcc (m_row acc ++ [(c', 0%Z)]) (length (m_row acc)) (m_den acc * ga_ij)%Z (m_ins acc))
        end
    end.

(** State of the loop over column j in Tableau::pivot. *)
Record pstate := PState { p_tab : tableau; p_sizes : list nat }.

(** cols_[A_il->col].emplace_back(k); ++sizes[A_il - A_i0]  (tableau.cc 114-115). *)
Fixpoint apply_ins (k : nat) (ins : list (nat * nat)) (s : pstate) : res pstate :=
  match ins with
  | [] => Ok s
  | (pos, c) :: r =>
      col ← at_ (t_cols (p_tab s)) c;
      n ← at_ (p_sizes s) pos;
      apply_ins k r (PState (set_col (p_tab s) c (col ++ [k])) (<[pos := S n]> (p_sizes s)))
  end.

(** The function passed to update_col in Tableau::pivot (tableau.cc 104-149).
    [Ai] are the (negated) cells of row i, [a_ij] the pivot element. *)
Definition pivot_row (i j : nat) (Ai : list cell) (a_ij d_i : Z)
    (k : nat) (a_kj d_k : Z) (s : pstate) : res pstate :=
  if k =? i then Ok s else
  let g := Z.gcd a_ij a_kj in
  _ ← guard_ub (negb (g =? 0)%Z);
  let ga_ij := (a_ij / g)%Z in
  let ga_kj := (a_kj / g)%Z in
  rk ← at_ (t_rows (p_tab s)) k;
  let acc := merge j ga_ij ga_kj Ai 0 (r_cells rk) (MAcc [] 0 d_k []) in
  c ← at_ (m_row acc) (m_piv acc);
  rk' ← simplify_row (Row (m_den acc) (<[m_piv acc := (c.1, (ga_kj * d_i)%Z)]> (m_row acc)));
  s' ← apply_ins k (m_ins acc) s;
  Ok (PState (Tab (<[k := rk']> (t_rows (p_tab s'))) (t_cols (p_tab s'))) (p_sizes s')).

(** std::set_union of two sorted ranges (tableau.cc 222-223). *)
Fixpoint set_union (l1 : list nat) : list nat -> list nat :=
  fix inner (l2 : list nat) : list nat :=
    match l1 with
    | [] => l2
    | a :: l1' =>
        match l2 with
        | [] => l1
        | b :: l2' =>
            if a <? b then a :: set_union l1' l2
            else if b <? a then b :: inner l2'
            else a :: set_union l1' l2'
        end
    end.

(** Restore sortedness of one column (tableau.cc 161-185). *)
Definition sort_col (n : nat) (col : list nat) : res (list nat) :=
  if n =? 0 then Ok col
  else if n =? 1 then
    match last col with
    | None => UB
    | Some k => Ok (col_insert k (take (length col - 1) col))
    end
  else
    _ ← guard_ub (n <=? length col);
    Ok (set_union (take (length col - n) col) (drop (length col - n) col)).
Fixpoint sort_cols (cells : list cell) (sizes : list nat) (t : tableau) : res tableau :=
  match cells, sizes with
  | (c, _) :: cells', n :: sizes' =>
      if n =? 0 then sort_cols cells' sizes' t
      else
        col ← at_ (t_cols t) c;
        col' ← sort_col n col;
        sort_cols cells' sizes' (set_col t c col')
  | [], _ => Ok t
  | _ :: _, [] => UB
  end.

(** Tableau::pivot, tableau.cc 84-187.  [p] is the position of the cell the
    reference a_ij points to (see [unsafe_get]); d_i is the denominator of row i. *)
Definition tpivot (t : tableau) (i j p : nat) : res tableau :=
  ri ← at_ (t_rows t) i;
  let d_i := r_den ri in
  let Ai := map (fun c : cell => if c.1 =? j then c else (c.1, (- c.2)%Z)) (r_cells ri) in
  let t1 := Tab (<[i := Row d_i Ai]> (t_rows t)) (t_cols t) in
  aij ← at_ Ai p;
  s ← update_col p_tab (fun t' s => PState t' (p_sizes s)) j
        (pivot_row i j Ai aij.2 d_i) (PState t1 (replicate (length Ai) 0));
  ri' ← simplify_row (Row aij.2 (<[p := (aij.1, d_i)]> Ai));
  let t2 := Tab (<[i := ri']> (t_rows (p_tab s))) (t_cols (p_tab s)) in
  sort_cols (r_cells ri') (p_sizes s) t2.

(** Tableau::size, tableau.cc 204-207. *)
Definition tsize (t : tableau) : nat := foldr (fun r n => length (r_cells r) + n) 0 (t_rows t).
(** Tableau::empty, tableau.cc 209-211. *)
Definition tempty (t : tableau) : bool := forallb (fun r => length (r_cells r) =? 0) (t_rows t).
