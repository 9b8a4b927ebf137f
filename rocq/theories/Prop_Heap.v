(* Prop_Heap.v - property C05: the addressable binary heap is a max-priority queue. *)
From Verif Require Import SpecPQ M_Heap P_Heap.

(** C05: for every capacity and every history of calls, the answers are those of the finite-map
    specification, as long as each call meets its precondition. *)
Theorem C05_heap_is_priority_queue : forall n os,
  behaves (pre_heap n) n qempty os (heap_run (heap_init n) os).
Proof.
  intros n os. apply heap_run_ok; [apply wfh_init | intro u; symmetry; apply habs_init].
Qed.
Print Assumptions C05_heap_is_priority_queue.

(** A history of calls that all meet their preconditions: nothing is cut short. *)
Definition c05_history : list qop :=
  [QInsert 0 5; QInsert 1 9; QInsert 2 7; QInsert 3 1; QIncreaseKey 3 8; QDecreaseKey 1 2;
   QMaxElement; QMaxValue; QDeleteMax; QDeleteNode 0; QContains 0; QChangeKey 1 20; QGetKey 1;
   QSize; QDeleteMax; QDeleteMax; QEmpty].

Example c05_answers : heap_run (heap_init 4) c05_history =
  [RUnit; RUnit; RUnit; RUnit; RUnit; RUnit; RNode 3; RKey 8; RNode 3; RUnit; RBool false; RUnit;
   RKey 20; RNum 2; RNode 1; RNode 2; RBool true].
Proof. reflexivity. Qed.

(** the preconditions of its first re-key are met *)
Example c05_pre : pre_heap 4 (qset (qset qempty 3 (Some 1%N)) 1 (Some 9%N)) (QIncreaseKey 3 8).
Proof. split; [lia|]. exists 1%N. split; [reflexivity|]. unfold key32. vm_compute. discriminate. Qed.
