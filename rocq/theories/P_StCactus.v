(* P_StCactus.v - proofs about findSTCactus, part 1: graphs whose prefixes are minimum cuts, and chains of links. *)
From Coq Require Import ZArith.
From Verif Require Import SpecCut SpecDyn P_Cut P_Crossing.

Definition pre (i x : nat) : bool := x <=? i.
Definition itv (a b x : nat) : bool := (a <=? x) && (x <=? b).

Ltac nlia := repeat match goal with H : @eq bool _ _ |- _ => clear H | H : @eq N _ _ |- _ => clear H | H : forall _, _ |- _ => clear H | H : @eq Z _ _ |- _ => clear H end; lia.
Ltac bools := unfold c11, c10, c01, c00, pre, itv; repeat match goal with
  | |- context [Nat.leb ?a ?b] => destruct (Nat.leb_spec a b); cbn [andb negb Nat.b2n]
  | |- context [Nat.ltb ?a ?b] => destruct (Nat.ltb_spec a b); cbn [andb negb Nat.b2n]
  end; try reflexivity; try nlia.

(** every prefix 0..i is a minimum cut, and these are all that separate 0 and n-1 *)
Record chained (n : nat) (W : wfun) (c : N) : Prop := {
  ch_n : 2 <= n; ch_sym : symm n W; ch_low : atleast c n W; ch_pos : (0 < c)%N;
  ch_pre : forall i, i < n - 1 -> cutw n W (pre i) = c;
  ch_all : forall S, cutw n W S = c -> S 0 = true -> S (n - 1) = false -> exists i, i < n - 1 /\ forall x, x < n -> S x = pre i x }.

Section Chained.
Context (n : nat) (W : wfun) (c : N) (Cd : chained n W c).
Ltac opn := destruct Cd as [Nn Sy Low Pc Pre All].
(** least and greatest element of a set *)
Lemma least (X : nat -> bool) m : X m = true -> exists a, a <= m /\ X a = true /\ forall x, x < a -> X x = false.
Proof.
  induction m as [m IH] using lt_wf_ind. intro H. destruct (existsb X (seq 0 m)) eqn:E.
  - apply existsb_exists in E. destruct E as (y & I & Y). apply in_seq in I. destruct (IH y ltac:(nlia) Y) as (a & A & B). exists a. split; [nlia|auto].
  - exists m. split; [nlia|]. split; [auto|]. intros x Hx. destruct (X x) eqn:Q; [|reflexivity]. rewrite <- E. symmetry. apply existsb_exists. exists x. rewrite in_seq. split; [nlia|auto].
Qed.
Lemma greatest (X : nat -> bool) m : m < n -> X m = true -> exists b, m <= b < n /\ X b = true /\ forall x, b < x < n -> X x = false.
Proof.
  intros Hm H. destruct (least (fun y => X (n - 1 - y)) (n - 1 - m)) as (a & A & B & C). { cbn. replace (n - 1 - (n - 1 - m)) with m by nlia. auto. }
  exists (n - 1 - a). split; [nlia|]. split; [auto|]. intros x Hx. specialize (C (n - 1 - x) ltac:(nlia)). cbn in C. replace (n - 1 - (n - 1 - x)) with x in C by nlia. auto.
Qed.

Lemma itv_or_prefix S : proper n S -> cutw n W S = c -> S 0 = true ->
  (exists i, i < n - 1 /\ forall x, x < n -> S x = pre i x) \/ (exists a b, 1 <= a /\ a <= b /\ b < n - 1 /\ forall x, x < n -> S x = negb (itv a b x)).
Proof. opn.
  intros P E S0. destruct (S (n - 1)) eqn:Sn; [right|left; apply All; auto].
  destruct P as [_ (v & Hv & Sv)]. set (X := fun x => negb (S x)).
  assert (Xv : X v = true) by (unfold X; rewrite Sv; reflexivity).
  destruct (least X v Xv) as (a & A1 & A2 & A3). destruct (greatest X v Hv Xv) as (b & B1 & B2 & B3).
  assert (EX : cutw n W X = c) by (unfold X; rewrite cutw_compl; auto).
  assert (X0 : X 0 = false) by (unfold X; rewrite S0; auto). assert (Xn : X (n - 1) = false) by (unfold X; rewrite Sn; auto).
  assert (a <> 0) by (intro Q; rewrite Q in A2; congruence). assert (b <> n - 1) by (intro Q; rewrite Q in B2; congruence).
  exists a, b. split; [nlia|]. split; [nlia|]. split; [nlia|]. intros k Hk.
  assert (Q : X k = itv a b k); [|rewrite <- Q; unfold X; destruct (S k); reflexivity].
  unfold itv. destruct (Nat.leb_spec a k) as [Lk|Lk]; cbn; [|apply A3; auto]. destruct (Nat.leb_spec k b) as [Uk|Uk]; [|apply B3; nlia].
  destruct (X k) eqn:Xk; [reflexivity|exfalso]. assert (a <> k) by (intro Q; rewrite Q in A2; congruence). assert (b <> k) by (intro Q; rewrite Q in B2; congruence).
  pose proof (crossing_square n W c X (pre (k - 1)) a b 0 (n - 1) Sy Low EX (Pre (k - 1) ltac:(nlia))) as Sq.
  assert (Q : square n W c X (pre (k - 1))). { apply Sq; auto; bools. }
  pose proof (sq_00 _ _ _ _ _ Q) as C00. rewrite <- cutw_compl in C00 by auto.
  destruct (All _ C00) as (i & Hi & Ei).
  - unfold c00. rewrite X0. bools.
  - unfold c00. rewrite Xn. bools.
  - pose proof (Ei b ltac:(nlia)) as Eb. pose proof (Ei k Hk) as Ek. unfold c00 in Eb, Ek. rewrite B2 in Eb. rewrite Xk in Ek. clear - Eb Ek Hk Lk Uk H1 H2. revert Eb Ek. bools; cbn; congruence.
Qed.

Lemma itv_cross a b k : 1 <= a -> b < n - 1 -> a <= k < b -> cutw n W (itv a b) = c -> square n W c (itv a b) (pre k).
Proof. opn. intros A B K E. apply (crossing_square n W c (itv a b) (pre k) a b 0 (n - 1)); auto; try nlia; try apply Pre; try nlia; bools. Qed.
Lemma sub_itv a b k : 1 <= a -> b < n - 1 -> a <= k <= b -> cutw n W (itv a b) = c -> cutw n W (itv a k) = c /\ cutw n W (itv k b) = c.
Proof.
  intros A B K E. split.
  - destruct (Nat.eq_dec k b) as [Q|D]; [rewrite Q; auto|]. rewrite <- (sq_11 _ _ _ _ _ (itv_cross a b k A B ltac:(nlia) E)). apply cutw_ext. intros u Hu. bools.
  - destruct (Nat.eq_dec k a) as [Q|D]; [rewrite Q; auto|]. rewrite <- (sq_10 _ _ _ _ _ (itv_cross a b (k - 1) A B ltac:(nlia) E)). apply cutw_ext. intros u Hu. bools.
Qed.
Lemma sub_itv2 a b i j : 1 <= a -> b < n - 1 -> a <= i -> i <= j -> j <= b -> cutw n W (itv a b) = c -> cutw n W (itv i j) = c.
Proof. intros A B I J K E. apply (sub_itv a j i A); [nlia|nlia|]. apply (sub_itv a b j A B); [nlia|auto]. Qed.
Lemma join_itv a b i j : 1 <= a -> a < i -> i <= b -> b < j -> j < n - 1 -> cutw n W (itv a b) = c -> cutw n W (itv i j) = c -> cutw n W (itv a j) = c.
Proof. opn.
  intros A AI IB BJ J E1 E2.
  assert (Q : square n W c (itv a b) (itv i j)) by (apply (crossing_square n W c _ _ i a j 0); auto; try nlia; bools).
  rewrite <- (sq_00 _ _ _ _ _ Q). rewrite <- cutw_compl by auto. apply cutw_ext. intros u Hu. bools.
Qed.
(** a minimum cut strictly inside makes the value even *)
Lemma itv_even a b : 1 <= a -> a <= b -> b < n - 1 -> cutw n W (itv a b) = c -> (c = 2 * (c / 2))%N.
Proof. opn.
  intros A AB B E.
  assert (Z : exists z, c = (2 * z)%N); [|destruct Z as (z & ->); rewrite (N.mul_comm 2 z), N.div_mul by lia; lia].
  pose proof (cut_parts3 n W (pre (a - 1)) (itv a b) (fun x => Nat.ltb b x) (fun _ => false)) as C1. rewrite (Pre (a - 1)) in C1 by nlia.
  pose proof (cut_parts n W (pre b) (pre (a - 1)) (itv a b) (fun x => Nat.ltb b x) (fun _ => false)) as C2. rewrite (Pre b) in C2 by nlia.
  pose proof (cut_parts3 n W (itv a b) (pre (a - 1)) (fun x => Nat.ltb b x) (fun _ => false)) as C3. rewrite E in C3.
  assert (Zr : forall Y, btw n W Y (fun _ => false) = 0%N). { intro Y. unfold btw. apply bsum_zero. intros u Hu. apply bsum_zero. intros v Hv. rewrite andb_false_r. reflexivity. }
  rewrite (btw_sym n W (itv a b) (pre (a - 1)) Sy) in C3. rewrite !Zr in *.
  exists (btw n W (pre (a - 1)) (itv a b)).
  assert (D1 : c = (btw n W (pre (a - 1)) (itv a b) + btw n W (pre (a - 1)) (fun x => Nat.ltb b x))%N).
  { rewrite C1 at 1; [clear; lia|]. intros u Hu. bools. }
  assert (D2 : c = (btw n W (pre (a - 1)) (fun x => Nat.ltb b x) + btw n W (itv a b) (fun x => Nat.ltb b x))%N).
  { rewrite C2 at 1; [clear; lia| |]; intros u Hu; bools. }
  assert (D3 : c = (btw n W (pre (a - 1)) (itv a b) + btw n W (itv a b) (fun x => Nat.ltb b x))%N).
  { rewrite C3 at 1; [clear; lia|]. intros u Hu. bools. }
  clear - D1 D2 D3. lia.
Qed.
End Chained.
