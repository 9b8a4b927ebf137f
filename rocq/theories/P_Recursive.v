(* P_Recursive.v - proofs about internalRecursiveCactus, part 1: a minimum cut that splits a block of the residual graph does not touch
   the other blocks. *)
From Coq Require Import Relations.
From Verif Require Import SpecCut SpecMutable LibZ M_Mutable P_Mutable P_MutableIO P_Cut M_PushRelabel P_Flow P_Flow2 P_Flow6 P_Crossing SpecDyn Prop_StCactus P_FlowChain.

Lemma find_pair n (p : nat -> nat -> bool) : (forall u v, u < n -> v < n -> p u v = false) \/ exists u v, u < n /\ v < n /\ p u v = true.
Proof.
  destruct (existsb (fun u => existsb (p u) (seq 0 n)) (seq 0 n)) eqn:E.
  - right. apply existsb_exists in E as (u & Iu & E). apply existsb_exists in E as (v & Iv & E). apply in_seq in Iu. apply in_seq in Iv. exists u, v. split; [lia|]. split; [lia|auto].
  - left. intros u v Hu Hv. destruct (p u v) eqn:Q; [|auto]. rewrite <- E. symmetry. apply existsb_exists. exists u. split; [apply in_seq; lia|]. apply existsb_exists. exists v. split; [apply in_seq; lia|auto].
Qed.
Lemma whole_dec n f (S : nat -> bool) : whole n f S \/ exists u v, u < n /\ v < n /\ f u = f v /\ S u = true /\ S v = false.
Proof.
  destruct (find_pair n (fun u v => (f u =? f v) && S u && negb (S v))) as [H|(u & v & Hu & Hv & E)].
  - left. intros u v Hu Hv E. pose proof (H u v Hu Hv) as A. pose proof (H v u Hv Hu) as B. cbn beta in A, B. rewrite E, Nat.eqb_refl in A. rewrite E, Nat.eqb_refl in B. destruct (S u), (S v); auto; discriminate.
  - right. exists u, v. apply andb_true_iff in E as [E A]. apply andb_true_iff in E as [E B]. apply Nat.eqb_eq in E. apply negb_true_iff in A. auto.
Qed.

Section Split.
Context (n : nat) (W : wfun) (Sy : symm n W) (c : N) (Lo : atleast c n W) (f : nat -> nat) (k s t : nat) (Hs : s < n) (Ht : t < n).
Context (Pre : forall i, i < k - 1 -> cutw n W (fun u => f u <=? i) = c) (Rf : forall u, u < n -> f u < k) (Fs : f s = 0) (Ft : f t = k - 1).
Context (St : forall S, cutw n W S = c -> S s <> S t -> whole n f S).

Lemma split_false Y u v : cutw n W Y = c -> Y s = false -> Y t = false -> u < n -> v < n -> f u = f v -> Y u = true -> Y v = false -> forall w, w < n -> f w <> f u -> Y w = false.
Proof.
  intros E Ys Yt Hu Hv Ef Yu Yv w Hw Nf. destruct (Y w) eqn:Yw; [exfalso|auto]. pose proof (Rf w Hw) as Bw. pose proof (Rf u Hu) as Bu. destruct (Nat.lt_ge_cases (f u) (f w)) as [L|L].
  - assert (Q : square n W c (fun x => f x <=? f u) Y).
    { apply (crossing_square n W c _ Y u s w t); auto; try (apply Nat.leb_le; lia); try (apply Nat.leb_gt; lia). apply Pre. lia. }
    assert (Wh : whole n f (c10 (fun x => f x <=? f u) Y)).
    { apply St; [apply Q|]. unfold c10. rewrite Ys, Yt, (proj2 (Nat.leb_le (f s) (f u))), (proj2 (Nat.leb_gt (f t) (f u))) by lia. discriminate. }
    specialize (Wh u v Hu Hv Ef). unfold c10 in Wh. rewrite Yu, Yv, <- Ef, Nat.leb_refl in Wh. discriminate Wh.
  - assert (Q : square n W c (fun x => f x <=? f w) Y).
    { apply (crossing_square n W c _ Y w s u t); auto; try (apply Nat.leb_le; lia); try (apply Nat.leb_gt; lia). apply Pre. lia. }
    assert (Wh : whole n f (c00 (fun x => f x <=? f w) Y)).
    { apply St; [apply Q|]. unfold c00. rewrite Ys, Yt, (proj2 (Nat.leb_le (f s) (f w))), (proj2 (Nat.leb_gt (f t) (f w))) by lia. discriminate. }
    specialize (Wh u v Hu Hv Ef). unfold c00 in Wh. rewrite Yu, Yv, <- Ef, (proj2 (Nat.leb_gt (f u) (f w))) in Wh by lia. discriminate Wh.
Qed.

(** every minimum cut follows the blocks or lies in one of them *)
Lemma split_one Y : cutw n W Y = c -> whole n f Y \/ exists i b, i < k /\ forall w, w < n -> f w <> i -> Y w = b.
Proof.
  intro E. destruct (whole_dec n f Y) as [H|(u & v & Hu & Hv & Ef & Yu & Yv)]; [left; auto|]. destruct (Bool.bool_dec (Y s) (Y t)) as [Q|Q]; [|left; apply St; auto]. right. exists (f u), (Y s). split; [apply Rf; auto|].
  destruct (Y s) eqn:Ys.
  - intros w Hw Nw. apply negb_false_iff. apply (split_false (fun x => negb (Y x)) v u); try (cbn beta; try rewrite <- Q; try rewrite Ys; try rewrite Yu; try rewrite Yv; auto; fail); auto; [rewrite cutw_compl; auto|congruence].
  - intros w Hw Nw. apply (split_false Y u v); auto.
Qed.
End Split.

(** the chain of blocks when s and t are joined by an edge *)
Section Chain.
Context (R : list (list half)) (V : valid_rows R).
Let n := length R.
Let W := wt (adj R).
Context (fl : list (list Z)) (x : Z) (s t : nat) (Hs : s < n) (Ht : t < n) (Nst : s <> t).
Context (Out : forall S, out_flow R fl S = ((if (S s : bool) then x else 0) - (if S t then x else 0))%Z).
Context (f : nat -> nat) (k : nat) (CL : clustering n f k) (Top : forall u v, redge R fl u v -> f v <= f u).
Context (c : N) (Hc : x = Z.of_N c) (Lo : atleast c n W).
Lemma chain_edge : 2 <= k -> (0 < c)%N -> (0 < W s t)%N -> st_chain n W f k c /\ f s = 0 /\ f t = k - 1.
Proof.
  intros K2 Pc Ed. assert (PF : forall i, i < k - 1 -> cutw n W (fun u => f u <=? i) = c /\ f s <= i /\ i < f t).
  { intros i Hi. pose proof (closed_cut R fl x s t Out (fun u => f u <=? i) (fun u v E H => proj2 (Nat.leb_le _ _) (Nat.le_trans _ _ _ (Top u v E) (proj1 (Nat.leb_le _ _) H)))) as E. cbn beta in E. fold n W in E.
    assert (LE : (c <= cutw n W (fun u => Nat.leb (f u) i))%N).
    { apply Lo. destruct CL as [_ On]. destruct (On 0 ltac:(lia)) as (a & Ha & Ea), (On (k - 1) ltac:(lia)) as (b & Hb & Eb). split; [exists a|exists b]; (split; [auto|]); [apply Nat.leb_le|apply Nat.leb_gt]; lia. }
    destruct (Nat.leb_spec (f s) i), (Nat.leb_spec (f t) i); try lia. }
  assert (F0 : f s = 0) by (destruct (PF 0 ltac:(lia)) as (_ & H & _); lia).
  assert (FT : f t = k - 1) by (destruct (PF (k - 2) ltac:(lia)) as (_ & _ & H); pose proof (proj1 CL t Ht); lia).
  split; [|auto]. constructor; auto.
  - intros i Hi. apply PF. exact Hi.
  - left. exists s, t. auto.
Qed.
End Chain.
