(** C06, C07, C08: broadcasting, element-wise operations, gradients of broadcast
    operands. *)
From Coq Require Import ZArith List Bool Arith Lia Permutation.
From Verif Require Import ShapeModel ShapeSpec TensorModel TensorSpec TensorLemmas BcastModel BcastSpec BcastProofs BcastProofs2.
Import ListNotations.

(** C06.  Without zero-size dimensions the computed shape is the broadcast of the
    operands, it fails exactly when there is none, and operand order is
    irrelevant. *)
Theorem broadcast_shape_partial : forall shapes, Forall positive shapes ->
  (forall sh, broadcastShape shapes = Some sh <-> is_broadcast shapes sh)
  /\ (forall shapes', Permutation shapes shapes' -> broadcastShape shapes' = broadcastShape shapes).
Proof.
  intros shapes HP. split.
  - intro sh. apply broadcastShape_iff; auto.
  - intros shapes' H. symmetry. apply broadcastShape_perm; auto.
Qed.
Example broadcast_shape_ex : broadcastShape [[2;1;4];[3;1];[]] = Some [2;3;4] /\ broadcastShape [[2];[3]] = None
  /\ Forall positive [[2;1;4];[3;1];[]].
Proof. repeat split. repeat constructor. Qed.
(** What is missing, and false of the code: zero-size dimensions. *)
Theorem broadcast_zero_size_refuted :
  broadcastShape [[0]] = Some [1]
  /\ broadcastShape [[0];[3]] = Some [3] /\ broadcastShape [[3];[0]] = None.
Proof. repeat split. Qed.

(** C07.  Operands [F1 .. Fn] of any shapes (no zero sizes) that broadcast to
    [sh]: element [idx] of the result is [f] of the elements the rule selects. *)
Theorem elementwise_broadcasts_partial : forall A B (f : list A -> B) (operands : list (list nat * (list nat -> A))) sh,
  Forall positive (map fst operands) -> is_broadcast (map fst operands) sh ->
  elementwise f (map (fun p => tensor_of (fst p) (snd p)) operands)
  = Ok (tensor_of sh (fun idx => f (map (fun p => snd p (bidx (fst p) idx)) operands))).
Proof. intros A B f ops sh HP HB. apply elementwise_correct; auto. apply broadcastShape_iff; auto. Qed.
Theorem elementwise_rejects_partial : forall A B (f : list A -> B) (ts : list (tensor A)),
  Forall positive (map tshape ts) -> (~ exists sh, is_broadcast (map tshape ts) sh) -> elementwise f ts = Fail.
Proof. exact @elementwise_fail. Qed.
(** The in-place forms compute the same values, even when an operand is the
    updated tensor itself. *)
Theorem elementwise_inplace_same_partial : forall A (f : list A -> A) sh F (others : list (option (list nat * (list nat -> A)))),
  Forall positive (sh :: map (fun o => match o with None => sh | Some p => fst p end) others) ->
  is_broadcast (sh :: map (fun o => match o with None => sh | Some p => fst p end) others) sh ->
  elementwise_inplace f (tensor_of sh F) (map (option_map (fun p => tensor_of (fst p) (snd p))) others)
  = Ok (tensor_of sh (fun idx =>
      f (F idx :: map (fun o => match o with None => F idx | Some p => snd p (bidx (fst p) idx) end) others))).
Proof. intros A f sh F others HP HB. apply inplace_correct; auto. apply broadcastShape_iff; auto. Qed.
Theorem unary_applies_everywhere : forall A B (f : A -> B) sh F,
  unary f (tensor_of sh F) = Some (tensor_of sh (fun idx => f (F idx))).
Proof. exact @unary_correct. Qed.
Example elementwise_ex :
  elementwise (fun l => fold_right Nat.add 0 l) [mkT [2;3] [1;2;3;4;5;6]; mkT [2;1] [10;20]; mkT [] [100]]
    = Ok (mkT [2;3] [111;112;113;124;125;126])
  /\ mkT [2;1] [10;20] = tensor_of [2;1] (fun idx => match idx with [0;_] => 10 | _ => 20 end)
  /\ elementwise_inplace (fun l => fold_right Nat.add 0 l) (mkT [2;2] [1;2;3;4]) [None; Some (mkT [2] [10;20])]
    = Ok (mkT [2;2] [12;24;16;28]).
Proof. repeat split. Qed.
(** False for zero sizes: adding two empty vectors reads element 0 of each. *)
Theorem elementwise_empty_refuted : elementwise (fun l => fold_right Nat.add 0 l) [mkT [0] []; mkT [0] []] = UB.
Proof. reflexivity. Qed.

(** C08.  For an operand of shape [self] broadcast to [gsh] the delivered
    gradient holds at [sidx] the sum of the incoming gradient over all output
    positions that read [sidx]; its shape is [self] unless the operand differs
    from the result only by missing leading 1-dimensions. *)
Theorem broadcast_gradient_partial : forall (K : cring) self gsh (F : list nat -> K), bto self gsh ->
  exists r, reduceGrad self (tensor_of gsh F) = Some r
  /\ tdata r = tdata (tensor_of self (reduced_grad self gsh F))
  /\ ((~ exists k, gsh = repeat 1 (S k) ++ self) -> tshape r = self).
Proof.
  intros K self gsh F H. destruct (reduceGrad_cases self gsh F H) as (r & E1 & E2 & E3). exists r. split; auto. split; auto.
  intro N. destruct E3 as [|[_ E3]]; auto. contradiction.
Qed.
(** The same fact as adjointness of broadcasting and gradient reduction. *)
Theorem broadcast_gradient_adjoint : forall (K : cring) self gsh (F X : list nat -> K), bto self gsh ->
  sum (fun idx => mul (X (bidx self idx)) (F idx)) (indices gsh)
  = sum (fun sidx => mul (X sidx) (reduced_grad self gsh F sidx)) (indices self).
Proof. exact @reduce_adjoint. Qed.
Theorem broadcast_operand_shapes : forall shapes sh s, is_broadcast shapes sh -> In s shapes -> bto s sh.
Proof. exact is_broadcast_bto. Qed.
Example broadcast_gradient_ex : bto [3;1] [2;3;2] /\
  reduceGrad (K := Zring) [3;1] (mkT [2;3;2] [1;2;3;4;5;6;7;8;9;10;11;12]%Z) = Some (mkT [3;1] [18;26;34]%Z).
Proof. split; [|reflexivity]. split; simpl; auto. Qed.
Theorem broadcast_gradient_rank_refuted : exists self gsh (g : tensor Zring), tshape g = gsh /\ bto self gsh /\
  option_map tshape (reduceGrad self g) = Some [1;3] /\ self = [3].
Proof. exists [3], [1;3], (mkT [1;3] [1;2;3]%Z). repeat split; simpl; auto. Qed.

Print Assumptions broadcast_shape_partial.
Print Assumptions broadcast_zero_size_refuted.
Print Assumptions elementwise_broadcasts_partial.
Print Assumptions elementwise_rejects_partial.
Print Assumptions elementwise_inplace_same_partial.
Print Assumptions unary_applies_everywhere.
Print Assumptions elementwise_empty_refuted.
Print Assumptions broadcast_gradient_partial.
Print Assumptions broadcast_gradient_adjoint.
Print Assumptions broadcast_operand_shapes.
Print Assumptions broadcast_gradient_rank_refuted.
