(** Sums and products of floating-point tensors with their rounding: the same
    loops as in ReduceModel, BcastModel, LinalgModel and SampleModel, for any
    element type with any addition and multiplication, and the three element
    types float, Half and BFloat16.  The compiler is taken to evaluate each
    operation as written (no fused multiply-add); matrix products are those
    without a BLAS library. *)
From Coq Require Import ZArith List Bool Arith.
From Flocq Require Import IEEE754.BinarySingleNaN IEEE754.Binary IEEE754.Bits.
From Verif Require Import ShapeModel TensorModel BcastModel BufModel PermModel CutModel ReduceModel LineModel LinalgModel SampleModel FloatModel Arith16Model.
Import ListNotations.
Open Scope nat_scope.

(** * The loops *)
Section Loops.
  Context {A : Type} (zero : A) (add mul : A -> A -> A).
  (** OpReduceCpu.h:48-58, 81-88, 231-234, [sum]. *)
  Definition sumAllOf (t : tensor A) : res (tensor A) := reduceOpAll zero add t.
  (** OpReduceCpu.h:156-181, 215-224, as BcastModel.sumDims. *)
  Definition sumDimsOf (t : tensor A) (ax : list bool) (keepDims : bool) : option (tensor A) :=
    let rsh := getReduceShape (tshape t) ax keepDims in
    obind (loop (seq 0 (tnumel t)) (repeat zero (numel rsh)) (fun ret srcIdx =>
             let r := getReduceDstIndex (tshape t) ax srcIdx in
             obind (rd ret r) (fun a => obind (rd (tdata t) srcIdx) (fun x => wr ret r (add a x)))))
          (fun d => Some (mkT rsh d)).
  (** OpReduceCpu.h:215-224. *)
  Definition sumOnDimsOf (t : tensor A) (dims : list Z) (keepDims : bool) : res (tensor A) :=
    if isScalar t then Ok t
    else match dims with [] => Fail | _ =>
      match marks (length (tshape t)) dims with
      | None => Fail
      | Some ax => match sumDimsOf t ax keepDims with None => UB | Some r => Ok r end
      end
    end.
  (** OpLinalgCpu.h:19-28, [dotOpCpuImpl]. *)
  Definition dotOf (a b : tensor A) : res (tensor A) :=
    match loop (seq 0 (tnumel a)) zero (fun acc i =>
            obind (rd (tdata a) i) (fun x => obind (rd (tdata b) i) (fun y => Some (add acc (mul x y))))) with
    | None => UB
    | Some r => Ok (mkT [] [r])
    end.
  (** OpLinalgCpu.h:118-141, [gemmCpuImpl] without BLAS, as LinalgModel.gemm. *)
  Definition gemmOf (a : list A) (ao : nat) (b : list A) (bo m k n : nat) (transA transB : bool) : option (list A) :=
    loop (seq 0 m) (repeat zero (m * n)) (fun c i =>
      loop (seq 0 k) c (fun c p =>
        obind (rd a (ao + (if transA then p * m + i else i * k + p))) (fun aVal =>
        loop (seq 0 n) c (fun c j =>
          obind (rd b (bo + (if transB then j * k + p else p * n + j))) (fun bVal =>
          obind (rd c (i * n + j)) (fun x => wr c (i * n + j) (add x (mul aVal bVal)))))))).
  (** OpLinalg.cpp:240-266, [matmulOpImpl] of two matrices; [Fail] also stands for
      the other ranks, which are not modelled here (LinalgModel.matmul has them). *)
  Definition matmulOf (a b : tensor A) (transA transB : bool) : res (tensor A) :=
    match tshape a, tshape b with
    | [a0; a1], [b0; b1] =>
      let m := if transA then a1 else a0 in
      let k := if transA then a0 else a1 in
      let n := if transB then b0 else b1 in
      if negb (k =? (if transB then b1 else b0))%nat then Fail else
      match gemmOf (tdata a) 0 (tdata b) 0 m k n transA transB with
      | None => UB
      | Some c => Ok (mkT [m; n] c)
      end
    | _, _ => Fail
    end.
  (** OpSamplingCpu.h:196-201, one line, as SampleModel.cumsumLine. *)
  Fixpoint cumsumLineOf (acc : A) (l : list A) : list A :=
    match l with [] => [] | x :: r => let s := add acc x in s :: cumsumLineOf s r end.
  (** OpSamplingCpu.h:175-205. *)
  Definition cumsumOf (t : tensor A) (dim : Z) : res (tensor A) :=
    match axis (length (tshape t)) dim with
    | None => Fail
    | Some k =>
      let n := nth k (tshape t) 0 in
      lineKernel (tshape t) (outerSize (tshape t) k) (innerSize (tshape t) k) n
        (fun o i => obind (readLine (tdata t) n (innerSize (tshape t) k) o i) (fun l => Some (cumsumLineOf zero l)))
    end.
End Loops.

(** * The element types *)
(** Tensor/DType.h:20-46, the floating-point ones. *)
Inductive fkind := F32 | F16 | BF16.
(** Addition; an element is its word.  Half.h, BFloat16.h: Arith16Model. *)
Definition fadd (k : fkind) : Z -> Z -> Z :=
  match k with F32 => fun a b => bits_of_b32 (b32_plus mode_NE (b32_of_bits a) (b32_of_bits b)) | F16 => half_add | BF16 => bf16_add end.
(** Multiplication. *)
Definition fmul (k : fkind) : Z -> Z -> Z :=
  match k with F32 => fun a b => bits_of_b32 (b32_mult mode_NE (b32_of_bits a) (b32_of_bits b)) | F16 => half_mul | BF16 => bf16_mul end.
(** A float as an element: Half.h, BFloat16.h constructors from float. *)
Definition ffloat (k : fkind) (f : binary32) : Z := match k with F32 => bits_of_b32 f | F16 => float_half f | BF16 => float_bf16 f end.
(** Zero; Half(0) and BFloat16(0) have the word 0 too. *)
Definition fzero : Z := 0%Z.
(** OpReduceCpu.h:48-58, 81-88, 183-193, 231-234. *)
Definition fsum (k : fkind) (t : tensor Z) : res (tensor Z) := sumAllOf fzero (fadd k) t.
(** OpReduceCpu.h:215-224. *)
Definition fsumOnDims (k : fkind) (t : tensor Z) (dims : list Z) (keepDims : bool) : res (tensor Z) := sumOnDimsOf fzero (fadd k) t dims keepDims.
(** OpLinalgCpu.h:19-28. *)
Definition fdot (k : fkind) (a b : tensor Z) : res (tensor Z) := dotOf fzero (fadd k) (fmul k) a b.
(** OpLinalg.cpp:240-266. *)
Definition fmatmul (k : fkind) (a b : tensor Z) (transA transB : bool) : res (tensor Z) := matmulOf fzero (fadd k) (fmul k) a b transA transB.
(** OpSamplingCpu.h:175-205. *)
Definition fcumsum (k : fkind) (t : tensor Z) (dim : Z) : res (tensor Z) := cumsumOf fzero (fadd k) t dim.
(** OpReduceCpu.h:242, 254: the quotient of two counts as floats; 1.f is the count 1. *)
Definition ratio (a n : nat) : binary32 := b32_div mode_NE (int_float (Z.of_nat a)) (int_float (Z.of_nat n)).
(** OpReduceCpu.h:243, 255: [mulInplace] with a scalar tensor of the same type. *)
Definition scaleBy (k : fkind) (t : tensor Z) (f : binary32) : tensor Z := mkT (tshape t) (map (fun x => fmul k x (ffloat k f)) (tdata t)).
(** OpReduceCpu.h:236-245, [mean]. *)
Definition fmean (k : fkind) (t : tensor Z) : res (tensor Z) :=
  if isScalar t then Ok t
  else match fsum k t with Ok s => Ok (scaleBy k s (ratio 1 (tnumel t))) | r => r end.
(** OpReduceCpu.h:247-259, [meanOnDims]. *)
Definition fmeanOnDims (k : fkind) (t : tensor Z) (dims : list Z) (keepDims : bool) : res (tensor Z) :=
  if isScalar t then Ok t
  else match dims with [] => Fail | _ =>
    match fsumOnDims k t dims keepDims with Ok s => Ok (scaleBy k s (ratio (tnumel s) (tnumel t))) | r => r end
  end.
