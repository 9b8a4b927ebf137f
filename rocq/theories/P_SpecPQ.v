(* P_SpecPQ.v - facts about the priority queue specification. *)
From Verif Require Import SpecPQ.

Lemma qsize_ext n m m' : (forall u, m u = m' u) -> qsize n m = qsize n m'.
Proof. intros H. unfold qsize. f_equal. apply filter_ext. intros v. now rewrite H. Qed.

Lemma qmax_ext m m' v k : (forall u, m u = m' u) -> qmax m' v k -> qmax m v k.
Proof. intros H [H1 H2]. split; [now rewrite H|]. intros u k'. rewrite H. apply H2. Qed.

