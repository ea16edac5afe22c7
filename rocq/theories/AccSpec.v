(** How accurate a floating-point result has to be. *)
From Coq Require Import ZArith Reals List.
From Flocq Require Import Core IEEE754.Binary IEEE754.Bits.
From Verif Require Import FloatSpec AccModel.
Import ListNotations.
Open Scope R_scope.

(** Bits of precision, and the exponent of the first number too large. *)
Definition precision (k : fkind) : Z := match k with F32 => 24 | F16 => 11 | BF16 => 8 end.
Definition emaxOf (k : fkind) : Z := match k with F32 => 128 | F16 => 16 | BF16 => 128 end.
(** A word of the type, the number it stands for, and whether it is a number. *)
Definition word (k : fkind) (w : Z) : Prop := (0 <= w < match k with F32 => 2 ^ 32 | _ => 2 ^ 16 end)%Z.
Definition value (k : fkind) (w : Z) : R := match k with F32 => B2R 24 128 (b32_of_bits w) | F16 => B2R 11 16 (fp16 w) | BF16 => B2R 8 128 (bf16 w) end.
Definition finite (k : fkind) (w : Z) : bool := match k with F32 => is_finite 24 128 (b32_of_bits w) | F16 => is_finite 11 16 (fp16 w) | BF16 => is_finite 8 128 (bf16 w) end.
(** The unit roundoff: 2^-24, 2^-11, 2^-8. *)
Definition unit (k : fkind) : R := bpow radix2 (- precision k).
(** Half of the least positive number: what is lost at most by underflow. *)
Definition tiny (k : fkind) : R := bpow radix2 (2 - emaxOf k - precision k).
(** The growth of [n] roundings: (1 + u)^n - 1. *)
Definition growth (k : fkind) (n : nat) : R := (1 + unit k) ^ n - 1.
(** Sums of numbers and of their sizes. *)
Definition total (l : list R) : R := fold_right Rplus 0 l.
Definition magnitude (l : list R) : R := fold_right (fun x s => Rabs x + s) 0 l.
(** The result of adding up the terms [l]: a number only if all terms are
    numbers, and then within [n - 1] roundings of the exact sum, relative to the sum of
    the sizes. *)
Definition accurateSum (k : fkind) (w : Z) (l : list Z) : Prop :=
  word k w /\
  (finite k w = true -> Forall (fun x => finite k x = true) l /\
     Rabs (value k w - total (map (value k) l)) <= growth k (length l - 1) * magnitude (map (value k) l)).
(** It is a number if the terms are and their sizes do not add up to too much. *)
Definition safeSum (k : fkind) (w : Z) (l : list Z) : Prop :=
  Forall (fun x => finite k x = true) l -> (1 + unit k) ^ length l * magnitude (map (value k) l) < bpow radix2 (emaxOf k) -> finite k w = true.
(** The same for a sum of products; each product has one more rounding and can
    underflow. *)
Definition products (k : fkind) (l : list (Z * Z)) : list R := map (fun p => value k (fst p) * value k (snd p)) l.
Definition accurateDot (k : fkind) (w : Z) (l : list (Z * Z)) : Prop :=
  word k w /\
  (finite k w = true -> Forall (fun p => finite k (fst p) = true /\ finite k (snd p) = true) l /\
     Rabs (value k w - total (products k l)) <= growth k (length l) * magnitude (products k l) + INR (length l) * (1 + unit k) ^ length l * tiny k).
Definition safeDot (k : fkind) (w : Z) (l : list (Z * Z)) : Prop :=
  Forall (fun p => finite k (fst p) = true /\ finite k (snd p) = true) l ->
  (1 + unit k) ^ length l * ((1 + unit k) * magnitude (products k l) + INR (length l) * tiny k) < bpow radix2 (emaxOf k) -> finite k w = true.
(** The mean: two more roundings for the factor 1/n and one for the product. *)
Definition accurateMean (k : fkind) (w : Z) (l : list Z) : Prop :=
  word k w /\
  (finite k w = true -> Forall (fun x => finite k x = true) l /\
     Rabs (value k w - total (map (value k) l) / INR (length l))
     <= growth k (length l + 2) * (magnitude (map (value k) l) / INR (length l)) + tiny k).
(** The result is a number and has no error at all. *)
Definition exactSum (k : fkind) (w : Z) (l : list Z) : Prop := finite k w = true /\ value k w = total (map (value k) l).
(** Whole numbers. *)
Definition whole (x : R) : Prop := exists z, x = IZR z.
(** The word of the number 1. *)
Definition oneWord (k : fkind) : Z := match k with F32 => 1065353216 | F16 => 15360 | BF16 => 16256 end.
