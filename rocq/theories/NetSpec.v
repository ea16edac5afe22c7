(** Which tensor programs the library differentiates correctly, and what their
    result is as a function of the elements of their leaves. *)
From Coq Require Import ZArith List Bool Arith Reals.
From Verif Require Import ShapeModel ShapeSpec TensorModel TensorSpec BcastModel BcastSpec LinalgModel LinalgSpec CutSpec ReduceSpec LossModel NetModel.
Import ListNotations.

(** What is known of a tensor before the program runs: shape and requiresGrad. *)
Definition kind := (list nat * bool)%type.
(** A tensor that gets a gradient through a broadcast to [sh]: its gradient has its
    own shape unless [sh] only has additional leading ones (C08). *)
Definition own_shape (k : kind) (sh : list nat) : Prop := snd k = true -> ~ exists n, sh = repeat 1 (S n) ++ fst k.
(** [accepts op ks sh]: arguments of these kinds give a result of shape [sh]. *)
Inductive accepts : nop -> list kind -> list nat -> Prop :=
| accepts_sin sh r : accepts OSin [(sh, r)] sh
| accepts_cos sh r : accepts OCos [(sh, r)] sh
| accepts_relu sh r : positive sh -> accepts ORelu [(sh, r)] sh
| accepts_sum sh r : positive sh -> sh <> [] -> accepts OSum [(sh, r)] []
| accepts_reshape sh sh' r : numel sh' = numel sh -> accepts (OReshape sh') [(sh, r)] sh'
| accepts_softmax sh r dim k : dim_is (length sh) dim k -> accepts (OSoftmax dim) [(sh, r)] sh
| accepts_logsoftmax sh r dim k : dim_is (length sh) dim k -> accepts (OLogSoftmax dim) [(sh, r)] sh
| accepts_dropout sh r p draws : positive sh -> length draws = numel sh -> accepts (ODropout p true draws) [(sh, r)] sh
| accepts_no_dropout sh r p draws : accepts (ODropout p false draws) [(sh, r)] sh
| accepts_binary op k1 k2 sh : In op [OAdd; OSub; OMul; ODiv] -> positive (fst k1) -> positive (fst k2) ->
    is_broadcast [fst k1; fst k2] sh -> own_shape k1 sh -> own_shape k2 sh -> accepts op [k1; k2] sh
| accepts_linear m k n r1 r2 : m <> 0 -> k <> 0 -> n <> 0 -> accepts OLinear [([m; k], r1); ([n; k], r2)] [m; n]
| accepts_linear_bias m k n r1 r2 r3 : m <> 0 -> k <> 0 -> n <> 0 -> accepts OLinear [([m; k], r1); ([n; k], r2); ([n], r3)] [m; n]
| accepts_conv n c h w oc kh kw stride padding r1 r2 : windows h w (D2 kh kw) stride padding -> oc <> 0 ->
    accepts (OConv stride padding) [([n; c; h; w], r1); ([oc; c; kh; kw], r2)]
      [n; oc; positions h kh (dh stride) (dh padding); positions w kw (dw stride) (dw padding)]
| accepts_conv_bias n c h w oc kh kw stride padding r1 r2 r3 : windows h w (D2 kh kw) stride padding -> oc <> 0 -> n <> 0 ->
    accepts (OConv stride padding) [([n; c; h; w], r1); ([oc; c; kh; kw], r2); ([oc], r3)]
      [n; oc; positions h kh (dh stride) (dh padding); positions w kw (dw stride) (dw padding)]
| accepts_mse sh tsh r red : positive sh -> positive tsh -> is_broadcast [sh; tsh] sh ->
    accepts (OMse red) [(sh, r); (tsh, false)] (match red with NONE => sh | _ => [] end)
| accepts_nll B C r t red : B <> 0 -> (forall b, b < B -> exists T, dim_is C (t [b]) T) -> red <> NONE ->
    accepts (ONll (tensor_of [B] t) red) [([B; C], r)] [].
(** The kinds of the tensors with the given numbers. *)
Definition kinds_of (ks : list kind) (xs : list nat) : option (list kind) := seqopt (map (nth_error ks) xs).
(** [typed p ks ks']: after tensors of kinds [ks], program [p] makes [ks'] out of
    them; a result requires grad if an argument does. *)
Inductive typed : list stmt -> list kind -> list kind -> Prop :=
| typed_nil ks : typed [] ks ks
| typed_leaf sh r p ks ks' : typed p (ks ++ [(sh, r)]) ks' -> typed (SLeaf sh r :: p) ks ks'
| typed_apply op xs p ks ks' sel sh : kinds_of ks xs = Some sel -> accepts op sel sh ->
    typed p (ks ++ [(sh, existsb snd sel)]) ks' -> typed (SApply op xs :: p) ks ks'.

(** The elements of tensor [v]. *)
Definition elements (st : list node) (v : nat) : list R := match nth_error st v with Some n => tdata (nval n) | None => [] end.
(** Where the program is differentiable: no argument of relu is 0, no divisor. *)
Definition smooth (p : list stmt) (st : list node) : Prop :=
  (forall i x, nth_error p i = Some (SApply ORelu [x]) -> ~ In 0%R (elements st x))
  /\ (forall i x y, nth_error p i = Some (SApply ODiv [x; y]) -> ~ In 0%R (elements st y)).
(** How often a tensor is an argument. *)
Definition uses (v : nat) (p : list stmt) : nat :=
  count_occ Nat.eq_dec (flat_map (fun s => match s with SApply _ xs => xs | SLeaf _ _ => [] end) p) v.
(** Operands of a sum, the first of a difference and the argument of a dropout that
    does nothing are used only there (C22 has why). *)
Definition sums_once (p : list stmt) : Prop :=
  (forall i x y, nth_error p i = Some (SApply OAdd [x; y]) -> uses x p = 1 /\ uses y p = 1)
  /\ (forall i x y, nth_error p i = Some (SApply OSub [x; y]) -> uses x p = 1)
  /\ (forall i q draws x, nth_error p i = Some (SApply (ODropout q false draws) [x]) -> uses x p = 1).
(** The negative log likelihood, if used, is the result itself: its gradient
    ignores the incoming one (C51). *)
Definition nll_last (p : list stmt) (r : nat) : Prop :=
  forall i t red xs, nth_error p i = Some (SApply (ONll t red) xs) -> i = r.
(** Every leaf has as many elements as its shape says. *)
Definition filled (p : list stmt) (theta : nat -> list R) : Prop :=
  forall l sh r, nth_error p l = Some (SLeaf sh r) -> length (theta l) = numel sh.

(** The leaves with element [j] of leaf [l] changed to [x]. *)
Definition replaced (theta : nat -> list R) (l j : nat) (x : R) : nat -> list R :=
  fun i => if i =? l then firstn j (theta i) ++ x :: skipn (S j) (theta i) else theta i.
(** The number in tensor [v] (a scalar) after the program ran. *)
Definition result (r : res (list node)) (v : nat) : R := match r with Ok st => nth 0 (elements st v) 0%R | _ => 0%R end.
(** Element [j] of a gradient; no gradient is zero. *)
Definition grad_at (a : gval) (j : nat) : R := match a with GTensor t => nth j (tdata t) 0%R | _ => 0%R end.
(** A gradient of shape [sh], or none. *)
Definition grad_shape (a : gval) (sh : list nat) : Prop :=
  a = GNone \/ exists d, a = GTensor (mkT sh d) /\ length d = numel sh.
