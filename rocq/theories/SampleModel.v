(** Sorting, top-k and cumulative sum: src/Operation/OpSamplingCpu.h. *)
From Coq Require Import ZArith List Bool Arith.
From Verif Require Import ShapeModel TensorModel BcastModel BufModel LineModel.
Import ListNotations.

(** OpSamplingCpu.h:196-201, one line. *)
Fixpoint cumsumLine {K : cring} (acc : K) (l : list K) : list K :=
  match l with [] => [] | x :: r => let s := add acc x in s :: cumsumLine s r end.
(** OpSamplingCpu.h:175-205. *)
Definition cumsum {K : cring} (t : tensor K) (dim : Z) : res (tensor K) :=
  match axis (length (tshape t)) dim with
  | None => Fail
  | Some k =>
    let n := nth k (tshape t) 0 in
    lineKernel (tshape t) (outerSize (tshape t) k) (innerSize (tshape t) k) n
      (fun o i => obind (readLine (tdata t) n (innerSize (tshape t) k) o i) (fun l => Some (cumsumLine zero l)))
  end.

Section Sort.
  (** [lt] is the element type's operator<.  [ssort cmp v] is std::sort and
      [psort cmp k v] is std::partial_sort of [v] with middle [k]; what the library
      promises about them is in SampleSpec. *)
  Context {A : Type} (lt : A -> A -> bool).
  Notation entry := (A * nat)%type.
  Context (ssort : (entry -> entry -> bool) -> list entry -> list entry).
  Context (psort : (entry -> entry -> bool) -> nat -> list entry -> list entry).
  (** OpSamplingCpu.h:42-47 and 160-164; [a > b] is [b < a]. *)
  Definition cmpOf (greater : bool) : entry -> entry -> bool :=
    fun a b => if greater then lt (fst b) (fst a) else lt (fst a) (fst b).
  (** OpSamplingCpu.h:52-55 and 155-159. *)
  Definition entries (l : list A) : list entry := combine l (seq 0 (length l)).
  Definition sortLine (descending : bool) (l : list A) : list entry := ssort (cmpOf descending) (entries l).
  (** OpSamplingCpu.h:56-59; the first [k] entries. *)
  Definition topkLine (k : nat) (largest sorted : bool) (l : list A) : list entry :=
    let v := psort (cmpOf largest) k (entries l) in
    if sorted then ssort (cmpOf largest) (firstn k v) else firstn k v.
  (** The two result tensors are filled by the same loop; they are modelled as one
      tensor of pairs that is split at the end. *)
  Definition unzip {B C} (r : res (tensor (B * C))) : res (tensor B * tensor C) :=
    match r with Ok t => Ok (mkT (tshape t) (map fst (tdata t)), mkT (tshape t) (map snd (tdata t))) | Fail => Fail | UB => UB end.
  (** OpSamplingCpu.h:130-173. *)
  Definition sort (t : tensor A) (dim : Z) (descending : bool) : res (tensor A * tensor nat) :=
    match axis (length (tshape t)) dim with
    | None => Fail
    | Some k =>
      let n := nth k (tshape t) 0 in
      unzip (lineKernel (tshape t) (outerSize (tshape t) k) (innerSize (tshape t) k) n
        (fun o i => obind (readLine (tdata t) n (innerSize (tshape t) k) o i) (fun l => Some (sortLine descending l))))
    end.
  (** OpSamplingCpu.h:16-67. *)
  Definition topk (t : tensor A) (k dim : Z) (largest sorted : bool) : res (tensor A * tensor nat) :=
    match axis (length (tshape t)) dim with
    | None => Fail
    | Some d =>
      let n := nth d (tshape t) 0 in
      if (0 <? k)%Z && (k <=? Z.of_nat n)%Z then
        let k := Z.to_nat k in
        unzip (lineKernel (set_nth (tshape t) d k) (outerSize (tshape t) d) (innerSize (tshape t) d) k
          (fun o i => obind (readLine (tdata t) n (innerSize (tshape t) d) o i) (fun l => Some (topkLine k largest sorted l))))
      else Fail
    end.
End Sort.
