(** What arithmetic on a floating-point format should give. *)
From Coq Require Import ZArith Reals Bool.
From Flocq Require Import Core IEEE754.BinarySingleNaN IEEE754.Binary IEEE754.Bits.
From Verif Require Import FloatSpec Arith16Model.
Open Scope Z_scope.

(** A 16-bit word. *)
Definition word16 (h : Z) : Prop := 0 <= h < 2 ^ 16.
(** What an operation does with the payload of a NaN is of no interest; any
    choice. *)
Definition nan1 (p e : Z) : Type := binary_float p e -> {x : binary_float p e | is_nan p e x = true}.
Definition nan2 (p e : Z) : Type := binary_float p e -> binary_float p e -> {x : binary_float p e | is_nan p e x = true}.
(** The operations on real numbers. *)
Definition exactly (op : operator) (a b : R) : R :=
  match op with OpAdd => a + b | OpSub => a - b | OpMul => a * b | OpDiv => a / b end.
(** The IEEE 754 operations of the format with [p] bits of precision and largest
    exponent [e], rounding to nearest, ties to even: for finite operands the
    exact result rounded once, with gradual underflow and overflow to infinity
    (Flocq's [Bplus_correct], ...), and the usual results for infinities, zeros
    and NaN. *)
Definition ieee (p e : Z) (hp : Prec_gt_0 p) (he : Prec_lt_emax p e) (nan : nan2 p e) (op : operator) : binary_float p e -> binary_float p e -> binary_float p e :=
  match op with
  | OpAdd => Bplus p e hp he nan mode_NE
  | OpSub => Bminus p e hp he nan mode_NE
  | OpMul => Bmult p e hp he nan mode_NE
  | OpDiv => Bdiv p e hp he nan mode_NE
  end.
(** The integer [n], rounded to the format. *)
Definition ieee_of_int (p e : Z) (hp : Prec_gt_0 p) (he : Prec_lt_emax p e) (n : Z) : binary_float p e := binary_normalize p e hp he mode_NE n 0 false.
(** The order of the numbers: [None] if one is NaN. *)
Definition holds (c : cmp) (o : option comparison) : bool :=
  match c, o with
  | CGt, Some Gt | CLt, Some Lt | CGe, Some Gt | CGe, Some Eq | CLe, Some Lt | CLe, Some Eq => true
  | _, _ => false
  end.
(** What [std::numeric_limits] promises for a format whose words are read by
    [val]: the least normal number, the extreme finite numbers, the distance from 1 to the
    next number, infinity, NaNs (a signalling one has a clear leading bit in its fraction,
    the bit [q]), the least positive number, and half a unit as rounding error. *)
Record limits_ok (p e : Z) (val : Z -> binary_float p e) (q : Z) (l : limits) : Prop := {
  lo_min : B2R p e (val (l_min l)) = bpow radix2 (2 - e);
  lo_max : is_finite p e (val (l_max l)) = true /\ forall h, word16 h -> (B2R p e (val h) <= B2R p e (val (l_max l)))%R;
  lo_lowest : is_finite p e (val (l_lowest l)) = true /\ forall h, word16 h -> (B2R p e (val (l_lowest l)) <= B2R p e (val h))%R;
  lo_epsilon : (exists h, word16 h /\ B2R p e (val h) = 1 + B2R p e (val (l_epsilon l)) /\ 0 < B2R p e (val (l_epsilon l)))%R
               /\ forall h, word16 h -> (1 < B2R p e (val h) -> 1 + B2R p e (val (l_epsilon l)) <= B2R p e (val h))%R;
  lo_infinity : val (l_infinity l) = B754_infinity p e false;
  lo_qnan : is_nan p e (val (l_qnan l)) = true /\ Z.testbit (l_qnan l) q = true;
  lo_denorm_min : (0 < B2R p e (val (l_denorm_min l)))%R /\ forall h, word16 h -> (0 < B2R p e (val h) -> B2R p e (val (l_denorm_min l)) <= B2R p e (val h))%R;
  lo_round_error : B2R p e (val (l_round_error l)) = (1 / 2)%R }.
(** The remaining one. *)
Definition snan_ok (p e : Z) (val : Z -> binary_float p e) (q : Z) (l : limits) : Prop :=
  is_nan p e (val (l_snan l)) = true /\ Z.testbit (l_snan l) q = false.
