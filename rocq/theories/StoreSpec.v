(** Specification of a shared key-value map. *)
From Coq Require Import ZArith List Bool Arith.
From Verif Require Import StoreModel.
Import ListNotations.
Open Scope Z_scope.

(** ** Numbers as text *)
Definition is_space (b : Z) : Prop := b = 32 \/ 9 <= b <= 13.
Definition is_digit (b : Z) : Prop := 48 <= b <= 57.
Definition number_of (ds : list Z) : Z := fold_left (fun a d => 10 * a + (d - 48)) ds 0.
(** Decimal text without superfluous characters. *)
Definition is_decimal (v : list Z) (z : Z) : Prop :=
  exists ds, Forall is_digit ds /\ ds <> [] /\ (hd 0 ds = 48 -> ds = [48]) /\
    ((v = ds /\ z = number_of ds) \/ (v = 45 :: ds /\ z = - number_of ds /\ z <> 0)).
(** Text as C reads it: white space, sign, digits, anything. *)
Definition reads_as (v : list Z) (z : Z) : Prop :=
  exists ws sg ds junk, v = ws ++ sg ++ ds ++ junk /\ Forall is_space ws /\ Forall is_digit ds /\ ds <> [] /\ (junk = [] \/ ~ is_digit (hd 0 junk)) /\
    ((sg = [] \/ sg = [43]) /\ z = number_of ds \/ sg = [45] /\ z = - number_of ds).

(** ** One operation on a map *)
Definition amap := key -> option value.
Definition changed_only (m m' : amap) (k : key) : Prop := forall k', k' <> k -> m' k' = m k'.
Definition unchanged (m m' : amap) : Prop := forall k, m' k = m k.
Definition all_present (m : amap) (ks : list key) : Prop := forall k, In k ks -> m k <> None.
Definition seq_step (m : amap) (o : op) (r : res) (m' : amap) : Prop :=
  match o with
  | OSet k v => r = RDone /\ m' k = Some v /\ changed_only m m' k
  | OGet k => unchanged m m' /\ (m k = None /\ r = RClosed \/ exists v, m k = Some v /\ r = RValue v)
  | OAdd k n => exists z t, ((m k = None \/ m k = Some []) /\ z = 0 \/ exists v, m k = Some v /\ reads_as v z) /\
                r = RInt (z + n) /\ m' k = Some t /\ is_decimal t (z + n) /\ changed_only m m' k
  | OCheck ks | OWait ks => unchanged m m' /\ exists b, r = RBool b /\ (b = true <-> all_present m ks)
  | ODelete k => m' k = None /\ changed_only m m' k /\ exists b, r = RBool b /\ (b = true <-> m k <> None)
  | ONumKeys => unchanged m m' /\ exists ks, NoDup ks /\ (forall k, In k ks <-> m k <> None) /\ r = RInt (Z.of_nat (length ks))
  end.
Inductive seq_run (m : amap) : list (op * res) -> amap -> Prop :=
| seq_nil : forall m', unchanged m m' -> seq_run m [] m'
| seq_snoc : forall l m1 o r m2, seq_run m l m1 -> seq_step m1 o r m2 -> seq_run m (l ++ [(o, r)]) m2.

(** ** Linearizability: a point for every operation between its invocation and
    its answer at which it takes effect *)
Inductive xevent := XInv (c : nat) (o : op) | XLin (c : nat) (o : op) (r : res) | XRes (c : nat) (o : op) (r : res).
Fixpoint visible (l : list xevent) : list event :=
  match l with [] => [] | XInv c o :: r => EInv c o :: visible r | XRes c o q :: r => ERes c o q :: visible r | XLin _ _ _ :: r => visible r end.
Fixpoint points (l : list xevent) : list (op * res) :=
  match l with [] => [] | XLin _ o q :: r => (o, q) :: points r | _ :: r => points r end.
(** One client: invocation, point, answer, repeatedly. *)
Inductive phase := PIdle | PInv (o : op) | PLin (o : op) (r : res).
Inductive phase_step (c : nat) : phase -> xevent -> phase -> Prop :=
| ps_inv : forall o, phase_step c PIdle (XInv c o) (PInv o)
| ps_lin : forall o r, phase_step c (PInv o) (XLin c o r) (PLin o r)
| ps_res : forall o r, phase_step c (PLin o r) (XRes c o r) PIdle
| ps_inv' : forall p c' o, c' <> c -> phase_step c p (XInv c' o) p
| ps_lin' : forall p c' o r, c' <> c -> phase_step c p (XLin c' o r) p
| ps_res' : forall p c' o r, c' <> c -> phase_step c p (XRes c' o r) p.
Inductive phases (c : nat) : list xevent -> phase -> Prop :=
| ph_nil : phases c [] PIdle
| ph_snoc : forall l p e p', phases c l p -> phase_step c p e p' -> phases c (l ++ [e]) p'.
Definition linearizable (tr : list event) : Prop :=
  exists l, visible l = tr /\ (forall c, exists p, phases c l p) /\ exists m, seq_run (fun _ => None) (points l) m.

(** ** Counters and waiting *)
Definition touches (k : key) (o : op) : Prop := match o with OSet k' _ | OAdd k' _ | ODelete k' => k' = k | _ => False end.
(** Amounts and results of the additions to [k]. *)
Definition isAdd (k : key) (o : op) : option Z := match o with OAdd k' n => if key_eqb k k' then Some n else None | _ => None end.
Fixpoint amounts (k : key) (l : list (op * res)) : list Z :=
  match l with [] => [] | (o, _) :: r => match isAdd k o with Some n => n :: amounts k r | None => amounts k r end end.
Fixpoint results (k : key) (l : list (op * res)) : list res :=
  match l with [] => [] | (o, q) :: r => match isAdd k o with Some _ => q :: results k r | None => results k r end end.
Fixpoint totals (a : Z) (l : list Z) : list Z := match l with [] => [] | n :: r => (a + n) :: totals (a + n) r end.
Fixpoint answers (k : key) (l : list event) : list res :=
  match l with [] => [] | ERes _ o q :: r => match isAdd k o with Some _ => q :: answers k r | None => answers k r end | EInv _ _ :: r => answers k r end.
Fixpoint invoked (k : key) (l : list event) : nat :=
  match l with [] => O | EInv _ o :: r => match isAdd k o with Some _ => S (invoked k r) | None => invoked k r end | ERes _ _ _ :: r => invoked k r end.
Definition isBlocked (t : thread) (o : op) (m : list key) : Prop := t = Reg o m \/ t = Sleep o m \/ t = Awake o m.
(** No action takes away a key some blocked client waits for. *)
Definition keeps_awaited (s s' : sys) : Prop := forall c o m k, isBlocked (thr s c) o m -> In k (waitsFor o) -> find (kv s) k <> None -> find (kv s') k <> None.
Inductive reach : sys -> Prop :=
| reach_init : reach init
| reach_act : forall s a s' ev, reach s -> act s a = Some (s', ev) -> keeps_awaited s s' -> reach s'.
