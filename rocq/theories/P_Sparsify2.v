(* P_Sparsify2.v - remove_heavy_vertices and the number printed by mincut_heavy. *)
From Verif Require Import M_Sparsify P_Cut.

Section HEAVY.
Variables (heavy : nat -> bool) (n : nat).
Let light v := negb (heavy v).
Definition rank (v : nat) : nat := length (filter light (seq 0 v)).
Definition keptl : list nat := filter light (seq 0 n).

Lemma rh_sum_nth : forall vs ctr k, k < length vs -> nth k (rh_sum heavy ctr vs) None = if heavy (nth k vs 0) then None else Some (ctr + length (filter light (firstn k vs))).
Proof.
  induction vs as [|v vs IH]; intros ctr k Hk; [cbn [length] in Hk; lia|]. cbn [rh_sum]. destruct k as [|k].
  - cbn [nth firstn filter length]. destruct (heavy v); cbn [nth]; auto.
  - cbn [length] in Hk. cbn [nth firstn filter]. unfold light at 1. destruct (heavy v); cbn [nth negb]; rewrite IH by lia; [reflexivity|]. cbn [length]. destruct (heavy _); [auto|f_equal; lia].
Qed.
Lemma rh_sum_length : forall vs ctr, length (rh_sum heavy ctr vs) = length vs.
Proof. induction vs as [|v vs IH]; intro ctr; [auto|]. cbn [rh_sum]. destruct (heavy v); cbn [length]; rewrite IH; auto. Qed.
Lemma firstn_seq m k a : k <= m -> firstn k (seq a m) = seq a k.
Proof. revert k a. induction m as [|m IH]; intros [|k] a H; cbn [seq firstn]; auto; [lia|]. f_equal. apply IH. lia. Qed.
Lemma pre_nth v : nth v (rh_sum heavy 0 (seq 0 n)) None = if (v <? n) && light v then Some (rank v) else None.
Proof.
  destruct (Nat.ltb_spec v n) as [L|L]; [|rewrite nth_overflow; [auto|rewrite rh_sum_length, seq_length; auto]].
  rewrite rh_sum_nth by (rewrite seq_length; auto). rewrite seq_nth, firstn_seq by lia. cbn [Nat.add andb]. unfold light at 2. destruct (heavy v); auto.
Qed.
Lemma rank_kept v : v < n -> light v = true -> rank v < length keptl /\ nth (rank v) keptl 0 = v.
Proof.
  intros L H. unfold keptl, rank. replace n with (v + S (n - S v)) by lia. rewrite seq_app, filter_app, app_length. cbn [seq filter Nat.add]. rewrite H. cbn [length]. split; [lia|].
  rewrite app_nth2, Nat.sub_diag by lia. reflexivity.
Qed.
Lemma kept_rank i : i < length keptl -> nth i keptl 0 < n /\ light (nth i keptl 0) = true /\ rank (nth i keptl 0) = i.
Proof.
  intro H. assert (I := nth_In _ 0 H). unfold keptl in I at 2. apply filter_In in I. destruct I as [I L]. apply in_seq in I. split; [lia|]. split; [auto|].
  destruct (rank_kept (nth i keptl 0)) as [A B]; [lia|auto|]. assert (ND : NoDup keptl) by (apply NoDup_filter, seq_NoDup).
  rewrite NoDup_nth with (d := 0) in ND. apply ND; auto.
Qed.
Lemma rank_eq v j : v < n -> light v = true -> j < length keptl -> (rank v =? j) = (v =? nth j keptl 0).
Proof.
  intros L H Hj. destruct (Nat.eqb_spec (rank v) j) as [<-|Ne].
  - destruct (rank_kept v L H) as [_ ->]. symmetry. apply Nat.eqb_refl.
  - symmetry. apply Nat.eqb_neq. intro E. apply Ne. rewrite E. apply kept_rank. auto.
Qed.
End HEAVY.

(** number of edges from u to v *)
Definition nedges (G : graph) (u v : nat) : N := N.of_nat (length (filter (fun e => fst e =? v) (nth u G []))).
Definition kept (bound : N) (G : graph) : list nat := keptl (rh_heavy bound G) (length G).

Lemma rh_row_wt pre es j v : (forall e, In e es -> (match nth (fst e) pre None with Some t => t =? j | None => false end) = (fst e =? v)) ->
  sumN snd (filter (fun e => fst e =? j) (rh_row pre es)) = N.of_nat (length (filter (fun e => fst e =? v) es)).
Proof.
  unfold rh_row. induction es as [|e es IH]; intro H; [reflexivity|]. cbn [flat_map filter]. rewrite filter_app, sumN_app, IH by (intros; apply H; right; auto).
  specialize (H e (or_introl eq_refl)). rewrite <- H. destruct (nth (fst e) pre None) as [t|]; [|simpl; lia]. cbn [filter fst]. destruct (t =? j); cbn [sumN snd length]; lia.
Qed.

Theorem remove_heavy_ok bound G : undirected G ->
  let (G2, pre) := remove_heavy bound G in
  length G2 = length (kept bound G) /\ length pre = length G /\
  (forall i, i < length G2 -> nth (nth i (kept bound G) 0) pre None = Some i) /\
  (forall v, v < length G -> rh_heavy bound G v = true -> nth v pre None = None) /\
  (forall u j w, In (j, w) (nth u G2 []) -> j < length G2 /\ j <> u /\ w = 1%N) /\
  (forall i j, i < length G2 -> j < length G2 -> wt G2 i j = nedges G (nth i (kept bound G) 0) (nth j (kept bound G) 0)).
Proof.
  intros [U1 U2]. unfold remove_heavy. cbv zeta. set (hv := rh_heavy bound G). set (n := length G). set (pre := rh_sum hv 0 (seq 0 n)).
  change (filter (fun v => negb (hv v)) (seq 0 n)) with (kept bound G). set (K := kept bound G).
  assert (KE : K = keptl hv n) by reflexivity.
  assert (PN : forall v, nth v pre None = if (v <? n) && negb (hv v) then Some (rank hv v) else None) by (intro v; apply pre_nth).
  assert (RN : forall i, i < length K -> nth i (map (fun v => rh_row pre (nth v G [])) K) [] = rh_row pre (nth (nth i K 0) G [])).
  { intros i Hi. rewrite (nth_indep _ [] (rh_row pre (nth 0 G []))) by (rewrite map_length; auto). exact (map_nth (fun v => rh_row pre (nth v G [])) K 0 i). }
  split; [apply map_length|]. split; [unfold pre; rewrite rh_sum_length, seq_length; auto|]. rewrite map_length.
  split; [|split; [|split]].
  - intros i Hi. destruct (kept_rank hv n i) as (A & B & C); [rewrite <- KE; auto|]. rewrite <- KE in *. rewrite PN. cbv beta in B. rewrite B, C. destruct (Nat.ltb_spec (nth i K 0) n); [auto|lia].
  - intros v Hv H. rewrite PN. fold hv in H. rewrite H, andb_false_r. auto.
  - intros u j w I. destruct (Nat.lt_ge_cases u (length K)) as [L|L]; [|rewrite nth_overflow in I by (rewrite map_length; auto); contradiction].
    rewrite RN in I by auto. unfold rh_row in I. apply in_flat_map in I. destruct I as [[v w'] [I1 I2]]. cbn [fst] in I2. rewrite PN in I2.
    destruct ((v <? n) && negb (hv v)) eqn:E; [|contradiction]. destruct I2 as [I2|[]]. injection I2 as <- <-. apply andb_prop in E. destruct E as [E1 E2]. apply Nat.ltb_lt in E1.
    destruct (rank_kept hv n v E1 E2) as [A B]. rewrite <- KE in *. split; [auto|]. split; [|auto]. intros <-. rewrite B in I1. destruct (U1 _ _ _ I1). congruence.
  - intros i j Hi Hj. unfold wt. rewrite RN by auto. apply rh_row_wt. intros e Ie. rewrite PN. destruct e as [v w]. cbn [fst] in *. destruct (U1 _ _ _ Ie) as [Hv _]. fold n in Hv.
    destruct (Nat.ltb_spec v n); [|lia]. cbn [andb]. destruct (negb (hv v)) eqn:E.
    + rewrite KE. apply rank_eq; auto. 
    + symmetry. apply Nat.eqb_neq. intros ->. destruct (kept_rank hv n j) as (_ & B & _); [rewrite <- KE; auto|]. rewrite <- KE in B. cbv beta in B. congruence.
Qed.

(** * the printed number *)
Lemma edge_cut_ok G (S : nat -> bool) : undirected G -> edge_cut G (fun v => if S v then 0 else 1) = cutw (length G) (wt G) S.
Proof.
  intros [U1 U2]. unfold edge_cut.
  assert (E : bsum (length G) (fun u => sumN (fun e => if Nat.eqb (if S u then 0 else 1) (if S (fst e) then 0 else 1) then 0%N else snd e) (nth u G [])) = (cutw (length G) (wt G) S + cutw (length G) (wt G) S)%N).
  { transitivity (bsum (length G) (fun u => bsum (length G) (fun v => if xorb (S u) (S v) then wt G u v else 0%N))).
    - apply bsum_ext. intros u Hu. unfold wt.
      rewrite (bsum_ext _ _ (fun v => sumN (fun e => if fst e =? v then (if xorb (S u) (S (fst e)) then snd e else 0%N) else 0%N) (nth u G []))).
      + unfold bsum. rewrite sumN_swap. apply sumN_ext. intros [t w] He. cbn [fst snd].
        rewrite (sumN_ext _ (fun v => if v =? t then (if xorb (S u) (S t) then w else 0%N) else 0%N)) by (intros v _; rewrite (Nat.eqb_sym t v); reflexivity).
        change (sumN _ (seq 0 (length G))) with (bsum (length G) (fun v => if v =? t then (if xorb (S u) (S t) then w else 0%N) else 0%N)).
        rewrite (bsum_single (length G) (fun _ => if xorb (S u) (S t) then w else 0%N) t) by (apply (U1 u t w He)). destruct (S u), (S t); reflexivity.
      + intros v _. rewrite sumN_filter. destruct (xorb (S u) (S v)) eqn:X.
        * apply sumN_ext. intros e _. destruct (Nat.eqb_spec (fst e) v) as [->|]; [rewrite X|]; reflexivity.
        * symmetry. apply sumN_zero. intros e _. destruct (Nat.eqb_spec (fst e) v) as [->|]; [rewrite X|]; reflexivity.
    - unfold cutw. rewrite (bsum_swap (length G) (length G) (fun u v => if S u && negb (S v) then wt G u v else 0%N)) at 2. rewrite <- bsum_add. apply bsum_ext. intros u Hu. rewrite <- bsum_add. apply bsum_ext. intros v Hv.
      rewrite (U2 v u) by auto. destruct (S u), (S v); cbn [xorb andb negb]; lia. }
  rewrite E. replace (cutw (length G) (wt G) S + cutw (length G) (wt G) S)%N with (cutw (length G) (wt G) S * 2)%N by lia. apply N.div_mul. discriminate.
Qed.

Theorem mincut_heavy_ok bound alg G : undirected G ->
  mincut_heavy bound alg G = cutw (length G) (wt G) (heavy_side (snd (remove_heavy bound G)) (alg (fst (remove_heavy bound G))) G) /\
  (forall i, i < length (kept bound G) -> heavy_side (snd (remove_heavy bound G)) (alg (fst (remove_heavy bound G))) G (nth i (kept bound G) 0) = alg (fst (remove_heavy bound G)) i).
Proof.
  intro U. assert (R := remove_heavy_ok bound G U). unfold mincut_heavy. destruct (remove_heavy bound G) as [G2 pre]. cbn [fst snd]. destruct R as (A & _ & B & _). split.
  - apply (edge_cut_ok G (heavy_side pre (alg G2) G)). exact U.
  - intros i Hi. unfold heavy_side. rewrite B by lia. reflexivity.
Qed.
