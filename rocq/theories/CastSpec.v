(** What converting numbers between element types should give. *)
From Coq Require Import ZArith Reals Bool List.
From Flocq Require Import Core IEEE754.Binary IEEE754.Bits.
From Verif Require Import DispatchModel FloatSpec CmpSpec.
Local Open Scope Z_scope.

(** The elements a tensor can hold: as in CmpSpec, but a Bool tensor holds bytes. *)
Definition cell (t : dtype) (w : Z) : Prop := match t with Bool => 0 <= w < 2 ^ 8 | _ => element t w end.
(** The nearest number of the format with [p] bits of precision and largest
    exponent [e], ties to even, with gradual underflow; infinity when that is too
    large; infinities and NaN as they are. *)
Definition nearest (p e : Z) (x : number) : number :=
  match x with
  | Num r => let v := round radix2 (FLT_exp (3 - e - p) p) ZnearestE r in
             if Rlt_bool (Rabs v) (bpow radix2 e) then Num v else if Rlt_bool r 0 then MInf else PInf
  | _ => x
  end.
(** The formats. *)
Definition precision (t : dtype) : Z := match t with Float16 => 11 | BFloat16 => 8 | _ => 24 end.
Definition exponent (t : dtype) : Z := match t with Float16 => 16 | _ => 128 end.
(** What converting the number [x] to type [t] should give: for a floating-point
    type the nearest number; for an integer type the number without its fraction,
    nothing if the type does not have that. *)
Definition converted (t : dtype) (x : number) : option number :=
  match t with
  | Float32 | Float16 | BFloat16 => Some (nearest (precision t) (exponent t) x)
  | Int32 | Int64 | Bool =>
    match x with
    | Num r => let n := Ztrunc r in
               if match t with Int32 => (- 2 ^ 31 <=? n) && (n <? 2 ^ 31) | Int64 => (- 2 ^ 63 <=? n) && (n <? 2 ^ 63) | _ => (0 <=? n) && (n <? 2 ^ 8) end
               then Some (Num (IZR n)) else None
    | _ => None
    end
  end.
(** The integer types. *)
Definition integral (t : dtype) : Prop := t = Int32 \/ t = Int64 \/ t = Bool.
(** Where the library's conversion is the wanted one: integers to bfloat16 up to
    2^24, integers to a smaller integer type if they fit. *)
Definition regular (s t : dtype) (w : Z) : Prop :=
  (integral s -> t = BFloat16 -> Z.abs w <= 2 ^ 24) /\ (integral s -> integral t -> cell t w).
(** Element [w] of type [s] stands for a number type [t] has, too. *)
Definition has_too (s t : dtype) (w : Z) : Prop := exists u, cell t u /\ value t u = value s w.
(** The sign of an element, which tells 0 from -0. *)
Definition minus (t : dtype) (w : Z) : bool :=
  match t with Float32 => Bsign 24 128 (b32_of_bits w) | Float16 => Bsign 11 16 (fp16 w) | BFloat16 => Bsign 8 128 (bf16 w) | _ => w <? 0 end.
