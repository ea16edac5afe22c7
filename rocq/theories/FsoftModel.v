(** Softmax and log-softmax of float, Half and BFloat16 tensors with their
    rounding, overflow, infinities and NaN: src/Operation/OpNNLayerCpu.h.  The
    library functions [std::exp] and [std::log] of a float are parameters.  The
    compiler is taken to evaluate each operation as written. *)
From Coq Require Import ZArith List Bool.
From Flocq Require Import Core IEEE754.BinarySingleNaN IEEE754.Binary IEEE754.Bits.
From Verif Require Import ShapeModel TensorModel BcastModel BufModel ReduceModel LineModel SoftmaxModel FloatModel Arith16Model AccModel.
Import ListNotations.
Open Scope Z_scope.

(** Half.h:392-394, BFloat16.h:135-137; IEEE subtraction of floats. *)
Definition fsub (k : fkind) : Z -> Z -> Z :=
  match k with F32 => fun a b => bits_of_b32 (b32_minus mode_NE (b32_of_bits a) (b32_of_bits b)) | F16 => half_sub | BF16 => bf16_sub end.
(** Half.h:404-410, BFloat16.h:147; IEEE negation. *)
Definition fneg (k : fkind) : Z -> Z :=
  match k with F32 => fun a => bits_of_b32 (b32_opp (b32_of_bits a)) | F16 => half_neg | BF16 => bf16_neg end.
(** Half.h:535, BFloat16.h:287; IEEE comparison. *)
Definition fgt (k : fkind) : Z -> Z -> bool :=
  match k with F32 => fun a b => float_cmp CGt (b32_of_bits a) (b32_of_bits b) | F16 => half_cmp CGt | BF16 => bf16_cmp CGt end.
(** [std::numeric_limits<T>::max()]: Half.h:578, BFloat16.h:331; the largest float. *)
Definition fmax (k : fkind) : Z := match k with F32 => 0x7F7FFFFF | F16 => l_max half_limits | BF16 => l_max bf16_limits end.
(** Half.h:367-373, BFloat16.h:102-108: an element as a float. *)
Definition tofloat (k : fkind) : Z -> binary32 := match k with F32 => b32_of_bits | F16 => half_float | BF16 => bf16_float end.
(** A function of [cmath] on an element: the overload for float, by the conversion
    to float, and back.  As at OpNNLayerCpu.h:43 and 56. *)
Definition fmath (k : fkind) (f : binary32 -> binary32) (w : Z) : Z := ffloat k (f (tofloat k w)).
(** Conversion between binary formats, as of float to double and back; the
    payload of a NaN is not modelled. *)
Definition fconv (p e p' e' : Z) (hp : Prec_gt_0 p') (he : Prec_lt_emax p' e') (nan : binary_float p' e') (x : binary_float p e) : binary_float p' e' :=
  match x with
  | B754_zero _ _ s => B754_zero p' e' s
  | B754_infinity _ _ s => B754_infinity p' e' s
  | B754_nan _ _ _ _ _ => nan
  | B754_finite _ _ s m ex _ => binary_normalize p' e' hp he mode_NE (SpecFloat.cond_Zopp s (Zpos m)) ex s
  end.
(** float to double. *)
Definition toDouble : binary32 -> binary64 := fconv 24 128 53 1024 eq_refl eq_refl (B754_nan 53 1024 false 1 eq_refl).
(** double to float. *)
Definition fromDouble : binary64 -> binary32 := fconv 53 1024 24 128 eq_refl eq_refl (B754_nan 24 128 false 1 eq_refl).
(** OpNNLayerCpu.h:51, [T invSum = 1.0 / sum]: a division of doubles (Half.h:459,
    BFloat16.h:211), which is converted to float and to T. *)
Definition recip (k : fkind) (s : Z) : Z :=
  ffloat k (fromDouble (b64_div mode_NE (binary_normalize 53 1024 eq_refl eq_refl mode_NE 1 0 false) (toDouble (tofloat k s)))).

(** OpNNLayerCpu.h:29-37. *)
Definition fscanMax (k : fkind) (l : list Z) : Z := fold_left (fun m v => if fgt k v m then v else m) l (fneg k (fmax k)).
(** OpNNLayerCpu.h:39-47: the exponentials. *)
Definition fexps (k : fkind) (ex : binary32 -> binary32) (l : list Z) : list Z := let mx := fscanMax k l in map (fun v => fmath k ex (fsub k v mx)) l.
(** OpNNLayerCpu.h:39-47: their sum. *)
Definition fexpSum (k : fkind) (ex : binary32 -> binary32) (l : list Z) : Z := fold_left (fadd k) (fexps k ex l) fzero.
(** OpNNLayerCpu.h:28-54, one line of softmax. *)
Definition fsoftmaxLine (k : fkind) (ex : binary32 -> binary32) (l : list Z) : list Z :=
  let invSum := recip k (fexpSum k ex l) in map (fun e => fmul k e invSum) (fexps k ex l).
(** OpNNLayerCpu.h:28-48, 55-61, one line of log-softmax. *)
Definition flogSoftmaxLine (k : fkind) (ex lg : binary32 -> binary32) (l : list Z) : list Z :=
  let mx := fscanMax k l in let logSum := fmath k lg (fexpSum k ex l) in map (fun v => fsub k (fsub k v mx) logSum) l.
(** OpNNLayerCpu.h:66-76. *)
Definition fsoftmax (k : fkind) (ex : binary32 -> binary32) (t : tensor Z) (dim : Z) : res (tensor Z) := softmaxWith (fun l => Some (fsoftmaxLine k ex l)) t dim.
(** OpNNLayerCpu.h:111-121. *)
Definition flogSoftmax (k : fkind) (ex lg : binary32 -> binary32) (t : tensor Z) (dim : Z) : res (tensor Z) := softmaxWith (fun l => Some (flogSoftmaxLine k ex lg l)) t dim.
