(* Prop_BucketPQ.v - properties C06 and C07: the bucket priority queues. *)
From Verif Require Import SpecPQ SpecPQOrder M_BucketPQ P_BucketPQ P_BucketOrder.

(** C06: for both bucket queues (fifo = true: fifo_node_bucket_pq, false: node_bucket_pq), every
    number of nodes, every gain span and every history of calls, the answers are those of the
    finite-map specification, as long as each call meets its precondition.  In particular no such call
    leaves the bucket arrays (the model answers every call). *)
Theorem C06_bucket_is_priority_queue : forall (fifo : bool) n span os,
  behaves (pre_bucket n span) n qempty os (bq_run fifo (bq_init n span) os).
Proof.
  intros fifo n span os. apply bq_run_ok; [apply wfb_init | intro u; symmetry; apply babs_init].
Qed.
Print Assumptions C06_bucket_is_priority_queue.

Definition c06_history : list qop :=
  [QInsert 0 5; QInsert 1 5; QInsert 2 5; QInsert 3 1; QIncreaseKey 3 5; QDeleteNode 1;
   QMaxElement; QMaxValue; QChangeKey 0 6; QDeleteMax; QContains 0; QDecreaseKey 2 0; QGetKey 2;
   QSize; QDeleteMax; QDeleteMax; QEmpty].
Example c06_answers_lifo : bq_run false (bq_init 4 6) c06_history =
  [RUnit; RUnit; RUnit; RUnit; RUnit; RUnit; RNode 2; RKey 5; RUnit; RNode 0; RBool false; RUnit;
   RKey 0; RNum 2; RNode 3; RNode 2; RBool true].
Proof. vm_compute. reflexivity. Qed.
Example c06_answers_fifo : bq_run true (bq_init 4 6) c06_history =
  [RUnit; RUnit; RUnit; RUnit; RUnit; RUnit; RNode 0; RKey 5; RUnit; RNode 0; RBool false; RUnit;
   RKey 0; RNum 2; RNode 3; RNode 2; RBool true].
Proof. vm_compute. reflexivity. Qed.
(** a call outside the span is the only way out of the arrays *)
Example c06_span_needed : bq_run false (bq_init 4 6) [QInsert 0 7] = [].
Proof. vm_compute. reflexivity. Qed.

(** C07: for every history of insertions and deleteMax calls, the queue answers exactly as the
    insertion-ordered list: among the nodes of maximal key the oldest (FIFO) resp. the youngest (LIFO)
    is handed out. *)
Theorem C07_deletion_order : forall (fifo : bool) n span os, ord_ok fifo n span [] os ->
  bq_run fifo (bq_init n span) os = ord_run fifo [] os.
Proof.
  intros fifo n span os H. apply bq_order with n span; [apply wfb_init | apply ordrel_init | exact H].
Qed.
Print Assumptions C07_deletion_order.

Definition c07_history : list qop :=
  [QInsert 0 5; QInsert 1 5; QInsert 2 3; QInsert 3 5; QDeleteMax; QInsert 4 5; QDeleteMax; QDeleteMax].
Example c07_hyp : ord_ok true 5 6 [] c07_history /\ ord_ok false 5 6 [] c07_history.
Proof.
  split; simpl; repeat split;
  try lia; try discriminate; unfold key32; try (vm_compute; discriminate); intuition discriminate.
Qed.
Example c07_answers :
  bq_run true (bq_init 5 6) c07_history = [RUnit; RUnit; RUnit; RUnit; RNode 0; RUnit; RNode 1; RNode 3] /\
  bq_run false (bq_init 5 6) c07_history = [RUnit; RUnit; RUnit; RUnit; RNode 3; RUnit; RNode 4; RNode 1].
Proof. vm_compute. auto. Qed.
