(** * What theory terms and atoms mean

    Specification for the theorems about parsing: nothing here refers to the
    functions of Parsing.v that parse; only the data types are used. *)

From Verif Require Import Num Solver Spec Parsing.

(** ** Numbers written as text *)

(** the ten digits and their values *)
Definition digit_of (c : ascii) : option Z :=
  match c with
  | "0" => Some 0 | "1" => Some 1 | "2" => Some 2 | "3" => Some 3 | "4" => Some 4
  | "5" => Some 5 | "6" => Some 6 | "7" => Some 7 | "8" => Some 8 | "9" => Some 9
  | _ => None
  end%char%Z.
Definition digit_value (c : ascii) : Qc := qofz (default 0%Z (digit_of c)).
(** the number denoted by digits before and after the decimal point *)
Fixpoint int_value (s : list ascii) : Qc :=
  match s with [] => 0 | c :: r => digit_value c * Qcpower (qofz 10) (length r) + int_value r end%Qc.
Fixpoint frac_value (s : list ascii) : Qc :=
  match s with [] => 0 | c :: r => (digit_value c + frac_value r) / qofz 10 end%Qc.
Definition digits (s : list ascii) : Prop := s <> [] /\ Forall (fun c => digit_of c <> None) s.
(** -?d+(.d+)? *)
Inductive unsigned_decimal : list ascii -> Qc -> Prop :=
  | dec_int s : digits s -> unsigned_decimal s (int_value s)
  | dec_frac s f : digits s -> digits f -> unsigned_decimal (s ++ "."%char :: f) (int_value s + frac_value f)%Qc.
Inductive decimal : list ascii -> Qc -> Prop :=
  | dec_pos s q : unsigned_decimal s q -> decimal s q
  | dec_neg s q : unsigned_decimal s q -> decimal ("-"%char :: s) (- q)%Qc.

(** a name in double quotes, and its text *)
Definition quoted (n : string) (s : list ascii) : Prop := list_ascii_of_string n = "034"%char :: s ++ ["034"%char].
(** the text an escaped text stands for *)
Inductive unescaped : list ascii -> list ascii -> Prop :=
  | un_nil : unescaped [] []
  | un_chr c s r : c <> "\"%char -> unescaped s r -> unescaped (c :: s) (c :: r)
  | un_nl s r : unescaped s r -> unescaped ("\" :: "n" :: s)%char ("010" :: r)%char
  | un_bs s r : unescaped s r -> unescaped ("\" :: "\" :: s)%char ("\" :: r)%char
  | un_dq s r : unescaped s r -> unescaped ("\" :: "034" :: s)%char ("034" :: r)%char.

(** ** Constants and variables *)

(** [t] is arithmetic on numbers only and has value [q]; quoted decimals are
    numbers iff [ns]. *)
Inductive numeric (ns : bool) : tterm -> Qc -> Prop :=
  | nu_num z : numeric ns (TNum z) (qofz z)
  | nu_dec n s q : ns = true -> quoted n s -> decimal s q -> numeric ns (TSym n) q
  | nu_add a b x y : numeric ns a x -> numeric ns b y -> numeric ns (TFun "+" [a; b]) (x + y)%Qc
  | nu_sub a b x y : numeric ns a x -> numeric ns b y -> numeric ns (TFun "-" [a; b]) (x - y)%Qc
  | nu_mul a b x y : numeric ns a x -> numeric ns b y -> numeric ns (TFun "*" [a; b]) (x * y)%Qc
  | nu_div a b x y : numeric ns a x -> numeric ns b y -> y <> 0%Qc -> numeric ns (TFun "/" [a; b]) (x / y)%Qc
  | nu_neg a x : numeric ns a x -> numeric ns (TFun "-" [a]) (- x)%Qc.

(** names of operators, by number of arguments *)
Definition operator (n : string) (k : nat) : Prop :=
  (k = 2 /\ (n = "+" \/ n = "-" \/ n = "*" \/ n = "/" \/ n = ".."))%string \/ (k = 1 /\ n = "-"%string).

(** [t] names the symbol [s]: constants, strings, functions and tuples; a
    minus before a function or constant is classical negation. *)
Inductive names : tterm -> symbol -> Prop :=
  | na_con n : (forall s, ~ quoted n s) -> names (TSym n) (SFun n [] true)
  | na_str n s r : quoted n s -> unescaped s r -> names (TSym n) (SStr (string_of_list_ascii r))
  | na_fun n args l : ~ operator n (length args) -> names_args args l -> names (TFun n args) (SFun n l true)
  | na_tup args l : names_args args l -> names (TTup args) (SFun "" l true)
  | na_neg a n l pos : n <> ""%string -> names a (SFun n l pos) -> names (TFun "-" [a]) (SFun n l (negb pos))
with names_args : list tterm -> list symbol -> Prop :=
  | na_nil : names_args [] []
  | na_sym t s ts ss : names t s -> names_args ts ss -> names_args (t :: ts) (s :: ss)
  | na_num t z ts ss : numeric false t (qofz z) -> (-2147483648 <= z <= 2147483647)%Z -> names_args ts ss -> names_args (t :: ts) (SNum z :: ss).

(** [t] is a variable of a linear expression *)
Definition decimal_term (t : tterm) : Prop := exists n s q, t = TSym n /\ quoted n s /\ decimal s q.
Definition negation (t : tterm) : Prop := exists a, t = TFun "-" [a].
Definition unary_plus (t : tterm) : Prop := exists a, t = TFun "+" [a].
Definition variable (t : tterm) (s : symbol) : Prop := names t s /\ ~ decimal_term t /\ ~ negation t /\ ~ unary_plus t.

(** ** Linear expressions *)

(** the value of a term, given the values of the variables *)
Inductive means (A : symbol -> Qc) : tterm -> Qc -> Prop :=
  | me_num z : means A (TNum z) (qofz z)
  | me_dec n s q : quoted n s -> decimal s q -> means A (TSym n) q
  | me_var t s : variable t s -> means A t (A s)
  | me_add a b x y : means A a x -> means A b y -> means A (TFun "+" [a; b]) (x + y)%Qc
  | me_sub a b x y : means A a x -> means A b y -> means A (TFun "-" [a; b]) (x - y)%Qc
  | me_neg a x : means A a x -> means A (TFun "-" [a]) (- x)%Qc
  | me_pos a x : means A a x -> means A (TFun "+" [a]) x
  | me_mul a b x y : means A a x -> means A b y -> means A (TFun "*" [a; b]) (x * y)%Qc
  | me_div a b x y : means A a x -> means A b y -> y <> 0%Qc -> means A (TFun "/" [a; b]) (x / y)%Qc.

(** terms without variables, linear terms, and linear terms without a constant
    summand *)
Inductive varfree : tterm -> Prop :=
  | vf_num z : varfree (TNum z)
  | vf_dec t : decimal_term t -> varfree t
  | vf_add a b : varfree a -> varfree b -> varfree (TFun "+" [a; b])
  | vf_sub a b : varfree a -> varfree b -> varfree (TFun "-" [a; b])
  | vf_neg a : varfree a -> varfree (TFun "-" [a])
  | vf_pos a : varfree a -> varfree (TFun "+" [a])
  | vf_mul a b : varfree a -> varfree b -> varfree (TFun "*" [a; b])
  | vf_div a b q : varfree a -> numeric true b q -> q <> 0%Qc -> varfree (TFun "/" [a; b]).
Inductive linear : tterm -> Prop :=
  | li_num z : linear (TNum z)
  | li_dec t : decimal_term t -> linear t
  | li_var t s : variable t s -> linear t
  | li_add a b : linear a -> linear b -> linear (TFun "+" [a; b])
  | li_sub a b : linear a -> linear b -> linear (TFun "-" [a; b])
  | li_neg a : linear a -> linear (TFun "-" [a])
  | li_pos a : linear a -> linear (TFun "+" [a])
  | li_mul a b : linear a -> linear b -> varfree a \/ varfree b -> linear (TFun "*" [a; b])
  | li_div a b q : linear a -> numeric true b q -> q <> 0%Qc -> linear (TFun "/" [a; b]).
Inductive homogeneous : tterm -> Prop :=
  | ho_var t s : variable t s -> homogeneous t
  | ho_add a b : homogeneous a -> homogeneous b -> homogeneous (TFun "+" [a; b])
  | ho_sub a b : homogeneous a -> homogeneous b -> homogeneous (TFun "-" [a; b])
  | ho_neg a : homogeneous a -> homogeneous (TFun "-" [a])
  | ho_pos a : homogeneous a -> homogeneous (TFun "+" [a])
  | ho_mul1 a b : homogeneous a -> varfree b -> homogeneous (TFun "*" [a; b])
  | ho_mul2 a b : varfree a -> homogeneous b -> homogeneous (TFun "*" [a; b])
  | ho_div a b q : homogeneous a -> numeric true b q -> q <> 0%Qc -> homogeneous (TFun "/" [a; b]).

(** ** Atoms.  [tr]: truth of literals and conditions *)

(** the value of a list of elements: those whose condition is false count 0 *)
Inductive sum_means (A : symbol -> Qc) (tr : Z -> Prop) : list telem -> Qc -> Prop :=
  | su_nil : sum_means A tr [] 0%Qc
  | su_in t cond cid es x y : cond = [] \/ tr cid -> means A t x -> sum_means A tr es y ->
      sum_means A tr (TElem [t] cond cid :: es) (x + y)%Qc
  | su_out t cond cid es x y : cond <> [] -> ~ tr cid -> means A t x -> sum_means A tr es y ->
      sum_means A tr (TElem [t] cond cid :: es) y.

Inductive relation_name : string -> rel -> Prop :=
  | rn_le : relation_name "<=" Rle | rn_ge : relation_name ">=" Rge | rn_eq : relation_name "=" Req
  | rn_gt : relation_name ">" Rgt | rn_lt : relation_name "<" Rlt.

(** the name of the atom is [n] *)
Definition called (n : string) (a : tatom) : Prop := ta_term a = TSym n \/ ta_term a = TFun n [].

(** the atom is a constraint that holds *)
Inductive atom_true (A : symbol -> Qc) (tr : Z -> Prop) : tatom -> Prop :=
  | at_sum a r g R x y : called "sum" a -> ta_guard a = Some (r, g) -> relation_name r R ->
      sum_means A tr (ta_elems a) x -> means A g y -> relq R x y -> atom_true A tr a
  | at_diff a r g R s t cid x y z : called "diff" a -> ta_guard a = Some (r, g) -> relation_name r R ->
      ta_elems a = [TElem [TFun "-" [s; t]] [] cid] -> means A s x -> means A t y -> means A g z -> relq R (x - y)%Qc z -> atom_true A tr a
  | at_dom a r g v l u cid x y : called "dom" a -> ta_guard a = Some (r, g) -> names g v ->
      ta_elems a = [TElem [TFun ".." [l; u]] [] cid] -> numeric true l x -> numeric true u y -> (x <= A v <= y)%Qc -> atom_true A tr a.
Definition is_constraint (a : tatom) : Prop :=
  called "sum" a \/ called "diff" a \/ called "dom" a.

(** the objective of a program: maximize counts positively, minimize
    negatively, other atoms not at all *)
Inductive objective_means (A : symbol -> Qc) (tr : Z -> Prop) : list tatom -> Qc -> Prop :=
  | ob_nil : objective_means A tr [] 0%Qc
  | ob_max a l x y : called "maximize" a -> sum_means A tr (ta_elems a) x -> objective_means A tr l y ->
      objective_means A tr (a :: l) (x + y)%Qc
  | ob_min a l x y : called "minimize" a -> sum_means A tr (ta_elems a) x -> objective_means A tr l y ->
      objective_means A tr (a :: l) (y - x)%Qc
  | ob_other a l y : ~ called "maximize" a -> ~ called "minimize" a -> objective_means A tr l y ->
      objective_means A tr (a :: l) y.

(** ** Well-formedness of what clingo delivers *)

(** every quoted text in the term is properly escaped *)
Definition escaped (s : list ascii) : Prop := exists r, unescaped s r.
Fixpoint clean (t : tterm) : Prop :=
  let all := fix all (l : list tterm) : Prop := match l with [] => True | x :: r => clean x /\ all r end in
  match t with
  | TNum _ => True
  | TSym n => forall s, quoted n s -> escaped s
  | TFun _ l | TTup l | TLst l | TSet l => all l
  end.
(** no divisor in the term is zero *)
Fixpoint zero_free (t : tterm) : Prop :=
  let all := fix all (l : list tterm) : Prop := match l with [] => True | x :: r => zero_free x /\ all r end in
  match t with
  | TFun n l => all l /\ forall a b ns, n = "/"%string -> l = [a; b] -> ~ numeric ns b 0%Qc
  | TTup l | TLst l | TSet l => all l
  | _ => True
  end.
Definition clean_atom (a : tatom) : Prop :=
  (forall e t, e ∈ ta_elems a -> t ∈ te_tuple e -> clean t) /\ (forall r g, ta_guard a = Some (r, g) -> clean g).
Definition zero_free_atom (a : tatom) : Prop :=
  (forall e t, e ∈ ta_elems a -> t ∈ te_tuple e -> zero_free t) /\ (forall r g, ta_guard a = Some (r, g) -> zero_free g).

(** an assignment that gives the marker of constants the value 1 *)
Definition with_unit (A : symbol -> Qc) (x : symbol) : Qc := if decide (x = SNum 0) then 1%Qc else A x.
(** a symbol a user can write as a variable *)
Definition user (x : symbol) : Prop := match x with SNum _ => False | _ => True end.

(** the elements with a condition have no constant summand *)
Definition homogeneous_conditions (a : tatom) : Prop :=
  forall e t, e ∈ ta_elems a -> te_cond e <> [] -> t ∈ te_tuple e -> homogeneous t.
(** the operands of a difference are not of the form -f(...) (or +f(...)) *)
Definition plain_operand (t : tterm) : Prop := (exists q, numeric true t q) \/ (~ negation t /\ ~ unary_plus t).
Definition plain_difference (a : tatom) : Prop :=
  called "diff" a -> forall e s t, e ∈ ta_elems a -> te_tuple e = [TFun "-" [s; t]] -> plain_operand s /\ plain_operand t.

(** ** Documented syntax *)

(** operands of a difference: numbers and variables *)
Definition operand (t : tterm) : Prop := (exists q, numeric true t q) \/ exists s, names t s.
Definition linear_elements (es : list telem) : Prop := forall e, e ∈ es -> exists t, te_tuple e = [t] /\ linear t.
Inductive well_formed (a : tatom) : Prop :=
  | wf_sum r g R : called "sum" a -> ta_guard a = Some (r, g) -> relation_name r R -> linear g -> linear_elements (ta_elems a) -> well_formed a
  | wf_diff r g R s t cid : called "diff" a -> ta_guard a = Some (r, g) -> relation_name r R -> linear g ->
      ta_elems a = [TElem [TFun "-" [s; t]] [] cid] -> operand s -> operand t -> well_formed a
  | wf_dom r g l u cid v x y : called "dom" a -> ta_guard a = Some (r, g) -> names g v ->
      ta_elems a = [TElem [TFun ".." [l; u]] [] cid] -> numeric true l x -> numeric true u y -> well_formed a
  | wf_max : called "maximize" a -> linear_elements (ta_elems a) -> well_formed a
  | wf_min : called "minimize" a -> linear_elements (ta_elems a) -> well_formed a
  (** atoms of other theories are ignored *)
  | wf_other : (forall n, n ∈ ["sum"; "diff"; "dom"; "maximize"; "minimize"]%string -> ~ called n a) -> well_formed a.

(** number of summands after multiplying out *)
Fixpoint summands (t : tterm) : nat :=
  match t with
  | TFun n [a; b] =>
      if (String.eqb n "+" || String.eqb n "-")%string then summands a + summands b
      else if String.eqb n "*" then summands a * summands b
      else if String.eqb n "/" then summands a else 1
  | TFun n [a] => if (String.eqb n "+" || String.eqb n "-")%string then summands a else 1
  | _ => 1
  end.
(** number of summands below a condition *)
Fixpoint conditional_summands (es : list telem) : nat :=
  match es with
  | [] => 0
  | e :: r => (match te_cond e with [] => 0 | _ => list_sum (map summands (te_tuple e)) end) + conditional_summands r
  end.
