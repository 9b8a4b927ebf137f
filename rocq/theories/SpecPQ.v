(* SpecPQ.v - specification of an addressable max-priority queue over node ids [0,n) with 32-bit
   keys: a plain finite map.  Independent of the models. *)
From Verif Require Export Lib.

(** keys are of type Gain = uint32 (common/definitions.h), arguments are truncated on the call *)
Definition key32 (k : N) : N := (k mod 4294967296)%N.

Inductive qop :=
| QInsert (v : nat) (k : N) | QDeleteMax | QDeleteNode (v : nat)
| QIncreaseKey (v : nat) (k : N) | QDecreaseKey (v : nat) (k : N) | QChangeKey (v : nat) (k : N)
| QContains (v : nat) | QGetKey (v : nat) | QSize | QEmpty | QMaxElement | QMaxValue.

Inductive qres := RUnit | RNode (v : nat) | RKey (k : N) | RBool (b : bool) | RNum (k : nat).

(** the abstract state: which nodes are queued, with which key *)
Definition qmap := nat -> option N.
Definition qempty : qmap := fun _ => None.
Definition qset (m : qmap) (v : nat) (x : option N) : qmap := fun u => if u =? v then x else m u.

Definition qsize (n : nat) (m : qmap) : nat :=
  length (filter (fun v => match m v with Some _ => true | None => false end) (seq 0 n)).

(** k is a maximal key and v carries it *)
Definition qmax (m : qmap) (v : nat) (k : N) : Prop :=
  m v = Some k /\ forall u k', m u = Some k' -> (k' <= k)%N.

(** what one call may answer and how it changes the map *)
Definition qstep (n : nat) (m : qmap) (o : qop) (r : qres) (m' : qmap) : Prop :=
  match o, r with
  | QInsert v k, RUnit => forall u, m' u = (match m v with None => qset m v (Some (key32 k)) u | Some _ => m u end)
  | QDeleteMax, RNode v => (exists k, qmax m v k) /\ forall u, m' u = qset m v None u
  | QDeleteNode v, RUnit => forall u, m' u = qset m v None u
  | QIncreaseKey v k, RUnit | QDecreaseKey v k, RUnit | QChangeKey v k, RUnit =>
      forall u, m' u = qset m v (Some (key32 k)) u
  | QContains v, RBool b => (b = true <-> m v <> None) /\ forall u, m' u = m u
  | QGetKey v, RKey k => m v = Some k /\ forall u, m' u = m u
  | QSize, RNum c => c = qsize n m /\ forall u, m' u = m u
  | QEmpty, RBool b => (b = true <-> forall v, m v = None) /\ forall u, m' u = m u
  | QMaxElement, RNode v => (exists k, qmax m v k) /\ forall u, m' u = m u
  | QMaxValue, RKey k => (exists v, qmax m v k) /\ forall u, m' u = m u
  | _, _ => False
  end.

(** [behaves pre n m os rs]: the answers [rs] to the calls [os], starting from the map [m], are those
    of the specification, up to the first call that violates its precondition. *)
Fixpoint behaves (pre : qmap -> qop -> Prop) (n : nat) (m : qmap) (os : list qop) (rs : list qres) : Prop :=
  match os with
  | [] => rs = []
  | o :: os' => pre m o ->
      exists r rs' m', rs = r :: rs' /\ qstep n m o r m' /\ behaves pre n m' os' rs'
  end.

Definition nonempty (m : qmap) : Prop := exists v k, m v = Some k.

(** preconditions of the binary heaps: nodes in range; a node that is re-keyed or deleted is
    queued; increaseKey/decreaseKey go in the right direction *)
Definition pre_heap (n : nat) (m : qmap) (o : qop) : Prop :=
  match o with
  | QInsert v k => v < n
  | QContains v => v < n
  | QDeleteMax | QMaxElement | QMaxValue => nonempty m
  | QDeleteNode v | QGetKey v => v < n /\ m v <> None
  | QIncreaseKey v k => v < n /\ exists k0, m v = Some k0 /\ (k0 <= key32 k)%N
  | QDecreaseKey v k => v < n /\ exists k0, m v = Some k0 /\ (key32 k <= k0)%N
  | QChangeKey v k => v < n /\ m v <> None
  | QSize | QEmpty => True
  end.

(** preconditions of the bucket queues: additionally keys are at most the gain span given to the
    constructor (itself < 2^31, so that bucket addresses fit 32 bits), and insert is only called for a
    node that is not queued *)
Definition pre_bucket (n span : nat) (m : qmap) (o : qop) : Prop :=
  match o with
  | QInsert v k => v < n /\ m v = None /\ (key32 k <= N.of_nat span)%N
  | QContains v => v < n
  | QDeleteMax | QMaxElement | QMaxValue => nonempty m
  | QDeleteNode v | QGetKey v => v < n /\ m v <> None
  | QIncreaseKey v k | QDecreaseKey v k | QChangeKey v k =>
      v < n /\ m v <> None /\ (key32 k <= N.of_nat span)%N
  | QSize | QEmpty => True
  end.
