(* Prop_UnionFind.v - properties C01, C02 of lib/data_structure/union_find.h *)
From Verif Require Import P_UnionFind.

(** C01.  After any history of in-range Union/Find calls (all of which terminate without an
    out-of-range access), two elements have the same representative exactly if they are connected
    by the requested unions; every Find answered an element of the same class, and every
    Union answered true exactly if its arguments were not yet connected. *)
Theorem C01_uf_is_closure : forall n os,
  Forall (op_lt n) os ->
  exists u rs,
    uf_run (uf_init n) os = Some (u, rs) /\ length rs = length os /\
    (forall x y, x < n -> y < n ->
       exists u1 rx u2 ry, uf_find u x = Some (u1, rx) /\ uf_find u1 y = Some (u2, ry) /\
         (rx = ry <-> conn (pairs_of os) x y)) /\
    (forall k a b t, nth_error os k = Some (OUnion a b) -> nth_error rs k = Some (RBool t) ->
       (t = true <-> ~ conn (pairs_of (firstn k os)) a b)) /\
    (forall k a r, nth_error os k = Some (OFind a) -> nth_error rs k = Some r ->
       exists x, r = RNode x /\ x < n /\ conn (pairs_of (firstn k os)) a x) /\
    (forall k a b r, nth_error os k = Some (OUnion a b) -> nth_error rs k = Some r ->
       exists t, r = RBool t).
Proof.
  intros n os Hos.
  destruct (run_inv n os Hos [] _ (inv_init n)) as (u & rs & Hr & Hi & Hl & Hans).
  exists u, rs. split; [exact Hr|]. split; [exact Hl|].
  split; [intros x y Hx Hy; exact (find_pair _ _ _ _ _ Hi Hx Hy)|].
  split; [intros k a b t Ho Hk; exact (Hans _ _ _ Ho Hk)|].
  split; intros k a; intros; specialize (Hans _ _ _ H H0).
  - destruct r; simpl in Hans; [contradiction|]. exists x. auto.
  - destruct r; simpl in Hans; [|contradiction]. eauto.
Qed.
Print Assumptions C01_uf_is_closure.

(** C01, second part.  Asking (which compresses paths) never changes the answer for any element. *)
Theorem C01_find_does_not_disturb : forall n os u rs x y,
  Forall (op_lt n) os -> uf_run (uf_init n) os = Some (u, rs) -> x < n -> y < n ->
  exists u1 rx u2 u3 r,
    uf_find u x = Some (u1, rx) /\ uf_find u y = Some (u2, r) /\ uf_find u1 y = Some (u3, r).
Proof.
  intros n os u rs x y Hos Hrun Hx Hy.
  destruct (run_inv n os Hos [] _ (inv_init n)) as (u' & rs' & Hr & Hi & _).
  rewrite Hr in Hrun. injection Hrun as -> ->. exact (find_stable _ _ _ _ _ Hi Hx Hy).
Qed.
Print Assumptions C01_find_does_not_disturb.

(** C02.  After any history, n() is the number of classes of the closure of the requested
    unions on [0,n). *)
Theorem C02_uf_counts_classes : forall n os,
  Forall (op_lt n) os ->
  exists u rs, uf_run (uf_init n) os = Some (u, rs) /\ classes n (conn (pairs_of os)) (uf_n u).
Proof.
  intros n os Hos.
  destruct (run_inv n os Hos [] _ (inv_init n)) as (u & rs & Hr & Hi & _).
  exists u, rs. split; [exact Hr|]. exact (inv_classes _ _ _ Hi).
Qed.
Print Assumptions C02_uf_counts_classes.

(** The class count is a function of the relation, so C02 pins n() down. *)
Theorem C02_class_count_unique : forall n os k k',
  classes n (conn (pairs_of os)) k -> classes n (conn (pairs_of os)) k' -> k = k'.
Proof. intros n os k k'. apply classes_unique; [apply conn_sym|apply conn_trans]. Qed.
Print Assumptions C02_class_count_unique.

(* a concrete history meeting the hypotheses: 6 elements, three merges, one redundant *)
Definition uf_demo : list uf_op :=
  [OUnion 0 1; OUnion 2 3; OUnion 3 0; OFind 2; OUnion 1 2; OFind 5].
Example uf_demo_in_range : Forall (op_lt 6) uf_demo.
Proof. repeat constructor. Qed.
Example uf_demo_runs :
  option_map (fun '(u, rs) => (uf_n u, rs)) (uf_run (uf_init 6) uf_demo) =
  Some (3, [RBool true; RBool true; RBool true; RNode 2; RBool false; RNode 5]).
Proof. vm_compute. reflexivity. Qed.
