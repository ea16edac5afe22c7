(** Reductions: src/Operation/OpReduce.cpp, OpReduceCpu.{h,cpp}.  Sums over an
    arbitrary commutative ring, means and variances over the reals (no
    rounding), extremes over an arbitrary total order. *)
From Coq Require Import ZArith List Bool Arith Reals.
From Verif Require Import ShapeModel TensorModel BcastModel BufModel.
Import ListNotations.

(** The reals as a ring of elements.  Model only. *)
Definition Rring : cring :=
  mkRing R 0%R 1%R Rplus Rmult Ropp Rplus_comm (fun x y z => eq_sym (Rplus_assoc x y z)) Rplus_0_l Rplus_opp_r
    Rmult_comm (fun x y z => eq_sym (Rmult_assoc x y z)) Rmult_1_l Rmult_plus_distr_l.

(** OpReduceCpu.h:81-88 and 183-193, [reduceOpAllCpuImpl] for a functor given
    by its default value and [apply]. *)
Definition reduceAll {A} (dflt : A) (app : A -> A -> A) (d : list A) (n : nat) : option A :=
  loop (seq 0 n) dflt (fun val i => obind (rd d i) (fun x => Some (app x val))).
(** OpReduceCpu.h:183-193. *)
Definition reduceOpAll {A} (dflt : A) (app : A -> A -> A) (t : tensor A) : res (tensor A) :=
  if isScalar t then Ok t
  else match reduceAll dflt app (tdata t) (tnumel t) with None => UB | Some v => Ok (mkT [] [v]) end.
(** OpReduceCpu.h:48-58, 231-234, [sum]. *)
Definition sumAll {K : cring} (t : tensor K) : res (tensor K) := reduceOpAll zero add t.

(** [mulInplace(ret, scalar)]: every element times [r] (C07 covers the
    broadcasting of the scalar).  As called at OpReduceCpu.h:243, 256. *)
Definition scaleBy (r : R) (t : tensor R) : tensor R := mkT (tshape t) (map (fun x => (x * r)%R) (tdata t)).
(** Model only: apply a total function to a result. *)
Definition rlift {A B} (f : A -> B) (r : res A) : res B := match r with UB => UB | Fail => Fail | Ok x => Ok (f x) end.
(** OpReduceCpu.h:236-245, [mean]. *)
Definition meanAll (t : tensor R) : res (tensor R) :=
  if isScalar t then Ok t else rlift (scaleBy (1 / INR (tnumel t))%R) (sumAll (K := Rring) t).
(** OpReduceCpu.h:247-259, [meanOnDims]. *)
Definition meanOnDims (t : tensor R) (dims : list Z) (keepDims : bool) : res (tensor R) :=
  if isScalar t then Ok t
  else match dims with [] => Fail | _ =>
    rlift (fun ret => scaleBy (INR (tnumel ret) / INR (tnumel t))%R ret) (sumOnDims (K := Rring) t dims keepDims)
  end.
(** OpReduceCpu.h:226-229 and 261-264, the one-dimension forms. *)
Definition sumOnDim {K : cring} (t : tensor K) (dim : Z) (keepDims : bool) := sumOnDims t [dim] keepDims.
(** OpReduceCpu.h:261-264. *)
Definition meanOnDim (t : tensor R) (dim : Z) (keepDims : bool) := meanOnDims t [dim] keepDims.

(** OpReduceCpu.h:266-289, [varMean]: the pair (variance, mean). *)
Definition varFactor (n : R) (unbiased : bool) : R :=
  let r := (1 / n)%R in if unbiased then (r * (n / (n - 1)))%R else r.
(** OpReduceCpu.h:266-289. *)
Definition varMean (t : tensor R) (unbiased : bool) : res (tensor R * tensor R) :=
  if isScalar t then Ok (mkT [] [0%R], t)
  else match meanAll t with
       | UB => UB | Fail => Fail
       | Ok meanVal =>
         match obind (rd (tdata meanVal) 0) (fun m =>
                 loop (seq 0 (tnumel t)) 0%R (fun acc i =>
                   obind (rd (tdata t) i) (fun x => let diff := (x - m)%R in Some (acc + diff * diff)%R))) with
         | None => UB
         | Some sq => Ok (mkT [] [(sq * varFactor (INR (tnumel t)) unbiased)%R], meanVal)
         end
       end.
(** OpReduceCpu.h:156-181 with the functor of 301-305. *)
Definition squaresDims (t : tensor R) (mean : list R) (ax : list bool) (keepDims : bool) : option (tensor R) :=
  let rsh := getReduceShape (tshape t) ax keepDims in
  obind (loop (seq 0 (tnumel t)) (repeat 0%R (numel rsh)) (fun ret srcIdx =>
           let r := getReduceDstIndex (tshape t) ax srcIdx in
           obind (rd (tdata t) srcIdx) (fun x => obind (rd mean r) (fun m =>
             let diff := (x - m)%R in
             obind (rd ret r) (fun a => wr ret r (a + diff * diff)%R)))))
        (fun d => Some (mkT rsh d)).
(** OpReduceCpu.h:291-315, [varMeanOnDims]: the mean is always computed with
    keepDims = true. *)
Definition varMeanOnDims (t : tensor R) (dims : list Z) (unbiased keepDims : bool) : res (tensor R * tensor R) :=
  if isScalar t then Ok (mkT [] [0%R], t)
  else match dims with [] => Fail | _ =>
    match meanOnDims t dims true with
    | UB => UB | Fail => Fail
    | Ok meanVal =>
      match marks (length (tshape t)) dims with
      | None => Fail
      | Some ax =>
        match squaresDims t (tdata meanVal) ax keepDims with
        | None => UB
        | Some varVal => Ok (scaleBy (varFactor (INR (tnumel t) / INR (tnumel varVal)) unbiased) varVal, meanVal)
        end
      end
    end
  end.

(** * Extremes *)
(** OpReduceCpu.h:14-46, the functors [OpCpuReduceMin] and [OpCpuReduceMax];
    std::min(a,b) is [b < a ? b : a], std::max(a,b) is [a < b ? b : a].  [lt] is
    the comparison of the element type (no NaN), [dflt] the default value. *)
Record functor (A : Type) := mkF { dflt : A; fapply : A -> A -> A; fcompare : A -> A -> bool }.
Arguments mkF {A}. Arguments dflt {A}. Arguments fapply {A}. Arguments fcompare {A}.
(** OpReduceCpu.h:13-28. *)
Definition opMin {A} (lt : A -> A -> bool) (maxVal : A) : functor A :=
  mkF maxVal (fun a b => if lt b a then b else a) (fun a b => lt a b).
(** OpReduceCpu.h:30-46. *)
Definition opMax {A} (lt : A -> A -> bool) (negMaxVal : A) : functor A :=
  mkF negMaxVal (fun a b => if lt a b then b else a) (fun a b => lt b a).

(** OpReduceCpu.h:90-101 and 195-205, argmin/argmax over all elements; [x != y]
    on elements is [lt x y || lt y x]. *)
Definition reduceIdxAll {A} (lt : A -> A -> bool) (f : functor A) (d : list A) (n : nat) : option nat :=
  option_map snd (loop (seq 0 n) (dflt f, 0) (fun st i =>
    obind (rd d i) (fun x =>
      let y := fapply f (fst st) x in
      Some (if lt y (fst st) || lt (fst st) y then (x, i) else st)))).
(** OpReduceCpu.h:195-205. *)
Definition argAll {A} (lt : A -> A -> bool) (f : functor A) (t : tensor A) : res (tensor nat) :=
  if isScalar t then Ok (mkT [] [0])
  else match reduceIdxAll lt f (tdata t) (tnumel t) with None => UB | Some i => Ok (mkT [] [i]) end.
(** OpReduceCpu.h:183-193 with the functors of 13-46. *)
Definition extremeAll {A} (f : functor A) (t : tensor A) : res (tensor A) := reduceOpAll (dflt f) (fapply f) t.

(** OpReduce.cpp:11-24, [getReduceShape] for one dimension. *)
Definition reduceShape1 (shape : list nat) (dim : nat) (keepDims : bool) : list nat :=
  flat_map (fun p => if snd p =? dim then (if keepDims then [1] else []) else [fst p]) (combine shape (seq 0 (length shape))).
(** OpReduceCpu.cpp:11-24, [getReduceSrcIndex]; state ([outIndex], [inIndex]),
    from the last dimension. *)
Definition getReduceSrcIndex (rsh sh : list nat) (idx dim : nat) (keepDims : bool) : nat :=
  snd (fold_right (fun p acc =>
         let coord := fst acc mod fst p in
         let d := snd p in
         (fst acc / fst p,
          snd acc + coord * nth (if keepDims || (d <? dim) then d else d + 1) (strides sh) 0))
       (idx, 0) (combine rsh (seq 0 (length rsh)))).
(** OpReduceCpu.h:116-130, one output element: [n] steps from [srcIdx]. *)
Definition scanDim {A} (f : functor A) (d : list A) (srcIdx stride n : nat) : option (A * nat) :=
  loop (seq 0 n) (dflt f, 0) (fun st j =>
    obind (rd d (srcIdx + j * stride)) (fun val => Some (if fcompare f val (fst st) then (val, j) else st))).
(** OpReduceCpu.h:103-154 and 207-213, max/min along a dimension: the values
    and the indices. *)
Definition extremeDim {A} (f : functor A) (t : tensor A) (dim : Z) (keepDims : bool) : res (tensor A * tensor nat) :=
  if isScalar t then Ok (t, mkT [] [0])
  else match axis (length (tshape t)) dim with
  | None => Fail
  | Some k =>
    let sh := tshape t in
    let rsh := reduceShape1 sh k keepDims in
    let lastDim := k =? length sh - 1 in
    let dimSize := nth k sh 0 in
    let stride := if lastDim then 1 else nth k (strides sh) 0 in
    match tab (numel rsh) (fun i =>
            scanDim f (tdata t) (if lastDim then i * dimSize else getReduceSrcIndex rsh sh i k keepDims) stride dimSize) with
    | None => UB
    | Some l => Ok (mkT rsh (map fst l), mkT rsh (map snd l))
    end
  end.
