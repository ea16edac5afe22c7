(** What softmax of rounded numbers has to give. *)
From Coq Require Import ZArith Reals List.
From Flocq Require Import Core IEEE754.Binary IEEE754.Bits.
From Verif Require Import FloatSpec AccModel AccSpec.
Import ListNotations.
Open Scope R_scope.

(** What a floating-point datum stands for: a number (zeros of both signs are 0),
    an infinity or no number. *)
Inductive ext := NaN | Inf (negative : bool) | Num (v : R).
Definition read {p e} (x : binary_float p e) : ext :=
  match x with B754_zero _ _ _ => Num 0 | B754_infinity _ _ s => Inf s | B754_nan _ _ _ _ _ => NaN | B754_finite _ _ _ _ _ _ => Num (B2R p e x) end.
(** What a word of an element type stands for. *)
Definition meaning (k : fkind) (w : Z) : ext := match k with F32 => read (b32_of_bits w) | F16 => read (fp16 w) | BF16 => read (bf16 w) end.

(** What is assumed of [std::exp] on floats: NaN gives NaN, minus infinity gives
    0, 0 gives 1, numbers below 0 give numbers from 0 to 1, and it is nondecreasing there. *)
Record exp_ok (ex : binary32 -> binary32) : Prop := {
  ex_nan : forall x, read x = NaN -> read (ex x) = NaN;
  ex_ninf : forall x, read x = Inf true -> read (ex x) = Num 0;
  ex_zero : forall x, read x = Num 0 -> read (ex x) = Num 1;
  ex_range : forall x v, read x = Num v -> v <= 0 -> exists y, read (ex x) = Num y /\ 0 <= y <= 1;
  ex_mono : forall x x' v v' y y', read x = Num v -> read x' = Num v' -> v <= v' <= 0 -> read (ex x) = Num y -> read (ex x') = Num y' -> y <= y' }.
(** What is assumed of [std::log]: NaN gives NaN, 0 gives minus infinity, a number [s]
    from 1 on gives a number from 0 to [s]. *)
Record log_ok (lg : binary32 -> binary32) : Prop := {
  lg_nan : forall x, read x = NaN -> read (lg x) = NaN;
  lg_zero : forall x, read x = Num 0 -> read (lg x) = Inf true;
  lg_range : forall x v, read x = Num v -> 1 <= v -> exists y, read (lg x) = Num y /\ 0 <= y <= v }.

(** A line with a distribution: numbers and minus infinities (masked elements), at least one
    number. *)
Definition proper (k : fkind) (l : list Z) : Prop :=
  Forall (fun w => meaning k w = Inf true \/ exists v, meaning k w = Num v) l /\ Exists (fun w => exists v, meaning k w = Num v) l.
(** The order of what two words stand for, for numbers and minus infinities. *)
Definition atMost (x y : ext) : Prop := match x, y with Inf true, _ => True | Num v, Num w => v <= w | _, _ => False end.

(** [std::exp] has the relative error [eps], apart from underflow. *)
Definition exp_within (ex : binary32 -> binary32) (eps : R) : Prop := forall x v, read x = Num v -> v <= 0 ->
  exists y, read (ex x) = Num y /\ y <= (1 + eps) * exp v + tiny F32 /\ exp v <= (1 + eps) * y + tiny F32.
(** The exact softmax of an element of a line; a masked element has no weight. *)
Definition weight (k : fkind) (w : Z) : R := match meaning k w with Num v => exp v | _ => 0 end.
Definition share (k : fkind) (l : list Z) (w : Z) : R := weight k w / total (map (weight k) l).
(** The numbers of the line are at most [D] apart. *)
Definition spread (k : fkind) (l : list Z) (D : R) : Prop := forall w w' v v', In w l -> In w' l -> meaning k w = Num v -> meaning k w' = Num v' -> v - v' <= D.
(** The factor between the result and the exact softmax: for each of the two
    exponentials (of the element and in the sum) the rounding of the difference, the error of
    [std::exp] and the rounding to the type; the underflow of [n] exponentials; [n + 4] other roundings. *)
Definition factor (k : fkind) (eps D : R) (n : nat) : R :=
  ((1 + unit k) * (1 + eps) * exp (unit k * D)) ^ 2 * (1 + 3 * INR n * tiny k) * (1 + unit k) ^ (n + 4).
(** Equal up to the factor [M] and underflow. *)
Definition close (k : fkind) (M x y : R) : Prop := x <= M * (y + 4 * tiny k) /\ y <= M * (x + 4 * tiny k).
