(** Filling and masked filling: src/Operation/OpFillingCpu.h:14-65. *)
From Coq Require Import ZArith List Bool Arith.
From Verif Require Import ShapeModel TensorModel BcastModel BufModel.
Import ListNotations.

Section Mask.
  Context {A : Type}.
  (** OpFillingCpu.h:24-29, with std::fill_n as a loop. *)
  Definition fill (self : tensor A) (val : A) : res (tensor A) :=
    match loop (seq 0 (tnumel self)) (tdata self) (fun d i => wr d i val) with
    | None => UB
    | Some d => Ok (mkT (tshape self) d)
    end.
  (** OpFillingCpu.h:15-22: [val] is a scalar tensor; nothing is written when
      [count] is not positive. *)
  Definition fillOffset (self val : tensor A) (offset count : Z) : res (tensor A) :=
    match tshape val, tdata val with
    | [], v :: _ =>
      match loop (seq 0 (Z.to_nat count)) (tdata self)
              (fun d i => let p := (offset + Z.of_nat i)%Z in if (p <? 0)%Z then None else wr d (Z.to_nat p) v) with
      | None => UB
      | Some d => Ok (mkT (tshape self) d)
      end
    | [], [] => UB
    | _, _ => Fail
    end.
  (** OpFillingCpu.h:31-40, the loop; [out] is another buffer than [self]'s. *)
  Definition maskedLoop (out : list A) (self : tensor A) (mask : tensor bool) (val : A) : option (list A) :=
    loop (seq 0 (tnumel self)) out (fun out i =>
      obind (rd (tdata mask) i) (fun m =>
      if m : bool then wr out i val else obind (rd (tdata self) i) (fun x => wr out i x))).
  (** OpFillingCpu.h:42-49.  The new tensor's memory is uninitialised. *)
  Definition fillMasked (self : tensor A) (mask : tensor bool) (val : A) : res (tensor A) :=
    if list_eqb (tshape mask) (tshape self) then
      finish (tshape self) (loop (seq 0 (tnumel self)) (fresh (tnumel self)) (fun out i =>
        obind (rd (tdata mask) i) (fun m =>
        if m : bool then put out i val else obind (rd (tdata self) i) (fun x => put out i x))))
    else Fail.
  (** OpFillingCpu.h:51-57: the shape of [out] is not checked. *)
  Definition fillMaskedOut (out self : tensor A) (mask : tensor bool) (val : A) : res (tensor A) :=
    if list_eqb (tshape self) (tshape mask) then
      match maskedLoop (tdata out) self mask val with None => UB | Some d => Ok (mkT (tshape out) d) end
    else Fail.
  (** OpFillingCpu.h:59-65: reads and writes the same buffer. *)
  Definition fillMaskedInplace (self : tensor A) (mask : tensor bool) (val : A) : res (tensor A) :=
    if list_eqb (tshape mask) (tshape self) then
      match loop (seq 0 (tnumel self)) (tdata self) (fun cur i =>
              obind (rd (tdata mask) i) (fun m =>
              if m : bool then wr cur i val else obind (rd cur i) (fun x => wr cur i x))) with
      | None => UB
      | Some d => Ok (mkT (tshape self) d)
      end
    else Fail.
End Mask.
