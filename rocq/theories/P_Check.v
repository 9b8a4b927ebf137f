(* P_Check.v - deciding the minimum cut of a concrete small graph by trying all subsets (for examples). *)
From Verif Require Import SpecCut P_Cut.

Fixpoint bools (n : nat) : list (list bool) :=
  match n with 0 => [[]] | S n' => map (cons true) (bools n') ++ map (cons false) (bools n') end.

Lemma bools_in l : In l (bools (length l)).
Proof.
  induction l as [|[] l IH]; cbn; [auto| |]; apply in_or_app; [left|right]; apply in_map; auto.
Qed.

Definition cuts_geb (G : graph) (c : N) : bool :=
  forallb (fun l => negb (existsb (fun b => b) l) || negb (existsb negb l) ||
                    (c <=? cutw (length G) (wt G) (fun v => nth v l false))%N) (bools (length G)).

Lemma cuts_geb_ok G c : cuts_geb G c = true -> forall S, proper (length G) S -> (c <= cutw (length G) (wt G) S)%N.
Proof.
  intros H S [[a [Ha Ea]] [b [Hb Eb]]]. unfold cuts_geb in H. rewrite forallb_forall in H.
  set (l := map S (seq 0 (length G))).
  assert (Ll : length l = length G) by (unfold l; rewrite map_length, seq_length; auto).
  assert (N : forall v, v < length G -> nth v l false = S v).
  { intros v Hv. unfold l. rewrite nth_indep with (d' := S 0) by (rewrite map_length, seq_length; auto).
    rewrite map_nth, seq_nth; auto. }
  specialize (H l ltac:(rewrite <- Ll; apply bools_in)).
  assert (X1 : existsb (fun b => b) l = true).
  { apply existsb_exists. exists true. split; [|auto]. unfold l. apply in_map_iff. exists a. split; [auto|apply in_seq; lia]. }
  assert (X2 : existsb negb l = true).
  { apply existsb_exists. exists false. split; [|auto]. unfold l. apply in_map_iff. exists b. split; [auto|apply in_seq; lia]. }
  rewrite X1, X2 in H. cbn in H. apply N.leb_le in H. erewrite cutw_ext; [exact H|]. intros v Hv. symmetry. auto.
Qed.

Lemma mincut_check G c l : cuts_geb G c = true -> length l = length G -> existsb (fun b => b) l = true -> existsb negb l = true ->
  cutw (length G) (wt G) (fun v => nth v l false) = c -> mincut_of G c.
Proof.
  intros H Ll X1 X2 E. split; [|apply cuts_geb_ok; auto]. exists (fun v => nth v l false). split; [|auto].
  apply existsb_exists in X1, X2. destruct X1 as [a [Ia Ea]]. destruct X2 as [b [Ib Eb]].
  apply In_nth with (d := false) in Ia, Ib. destruct Ia as [i [Hi Ei]]. destruct Ib as [j [Hj Ej]].
  split; [exists i|exists j]; (split; [lia|]); [congruence|]. rewrite Ej. destruct b; [discriminate|auto].
Qed.
