(** How accurate log-softmax of rounded numbers has to be. *)
From Coq Require Import ZArith Reals List.
From Flocq Require Import Core IEEE754.Binary IEEE754.Bits.
From Verif Require Import FloatSpec AccModel AccSpec FsoftSpec.
Open Scope R_scope.

(** [std::log] has the relative error [eps], apart from underflow. *)
Definition log_within (lg : binary32 -> binary32) (eps : R) : Prop := forall x v, read x = Num v -> 1 <= v ->
  exists y, read (lg x) = Num y /\ y <= (1 + eps) * ln v + tiny F32 /\ ln v <= (1 + eps) * y + tiny F32.
(** The factor between the sum of the exponentials as computed and as it should be. *)
Definition sumFactor (k : fkind) (eps D : R) (n : nat) : R := (1 + unit k) * (1 + eps) * exp (unit k * D) * (1 + 3 * INR n * tiny k) * (1 + unit k) ^ n.
(** Equal up to the factor [H] and the difference [e]. *)
Definition near (H e x y : R) : Prop := x <= H * (y + e) /\ y <= H * (x + e).
