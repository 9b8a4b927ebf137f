(* P_ParContract2.v - proofs about M_ParContract: the second loop writes every edge of the contracted graph. *)
From Verif Require Import P_Cut P_MutableIO.
From Verif Require Export P_ParContract.

(** ** places in the edge array *)
Lemma starts_len : forall deg b, length (starts b deg) = length deg.
Proof. induction deg as [|d deg IH]; intro b; cbn; auto. Qed.
Lemma starts_nth : forall deg b v, v < length deg -> nth v (starts b deg) 0 = b + fold_right Nat.add 0 (firstn v deg).
Proof. induction deg as [|d deg IH]; intros b [|v] H; cbn in H; try lia; cbn [starts nth firstn fold_right]; [lia|]. rewrite IH by lia. lia. Qed.
Lemma pre_step : forall deg v, v < length deg -> fold_right Nat.add 0 (firstn (S v) deg) = fold_right Nat.add 0 (firstn v deg) + nth v deg 0.
Proof. induction deg as [|d deg IH]; intros [|v] H; cbn in H; try lia; [cbn; lia|]. cbn [firstn fold_right nth]. rewrite <- Nat.add_assoc, <- IH by lia. reflexivity. Qed.
Lemma pre_mono : forall deg u v, u <= v -> fold_right Nat.add 0 (firstn u deg) <= fold_right Nat.add 0 (firstn v deg).
Proof. induction deg as [|d deg IH]; intros [|u] [|v] H; cbn; try lia. specialize (IH u v). lia. Qed.
Lemma pre_all deg v : fold_right Nat.add 0 (firstn v deg) <= fold_right Nat.add 0 deg.
Proof. revert v. induction deg as [|d deg IH]; intros [|v]; cbn; try lia. specialize (IH v). lia. Qed.

Section Two.
Context (num : nat) (S : small num) (tab : list (N * N)) (deg : list nat) (K : list N).
Context (LD : length deg = num) (HD : forall v, nth v deg 0 = length (filter (touches v) K)) (HE : forall k, In k K -> edge_key num k) (HT : forall k, In k K -> has k tab = true).
Let start v := nth v (starts 0 deg) 0.
Let size := fold_right Nat.add 0 deg.

Lemma start_next v : v < num -> start v + nth v deg 0 <= size /\ forall u, v < u -> u < num -> start v + nth v deg 0 <= start u.
Proof.
  intro H. unfold start, size. rewrite starts_nth by lia. cbn [plus]. rewrite <- pre_step by lia. split; [apply pre_all|]. intros u A B. rewrite starts_nth by lia. cbn [plus]. apply pre_mono. lia.
Qed.
Lemma place_inj v i u j : v < num -> u < num -> i < nth v deg 0 -> j < nth u deg 0 -> start v + i = start u + j -> v = u /\ i = j.
Proof.
  intros Hv Hu Hi Hj E. destruct (Nat.lt_trichotomy v u) as [L|[->|L]]; [|lia|]; exfalso.
  - pose proof (proj2 (start_next v Hv) u L Hu). lia.
  - pose proof (proj2 (start_next u Hu) v L Hv). lia.
Qed.

(** the entry that key k gives to its first and its second vertex *)
Definition inc1 (v : nat) (k : N) : list (nat * N) := if fst (pair_of k) =? v then [(snd (pair_of k), tget k tab)] else [].
Definition inc2 (v : nat) (k : N) : list (nat * N) := if snd (pair_of k) =? v then [(fst (pair_of k), tget k tab)] else [].
Definition entries (v : nat) (ks : list N) : list (nat * N) := flat_map (fun k => inc1 v k ++ inc2 v k) ks.
Lemma entries_len v ks : (forall k, In k ks -> edge_key num k) -> length (entries v ks) = length (filter (touches v) ks).
Proof.
  induction ks as [|k ks IH]; intro H; [reflexivity|]. unfold entries in *. cbn [flat_map filter]. rewrite !app_length, IH by (intros; apply H; right; auto).
  destruct (H k (or_introl eq_refl)) as (a & b & A & B & E). destruct (key_pair num a b S A B) as (P & _ & _). unfold touches, inc1, inc2. rewrite E, P. cbn [fst snd].
  destruct (Nat.eqb_spec a v), (Nat.eqb_spec b v); cbn; lia.
Qed.
(** what a thread still has to claim at v; what it has claimed and not written *)
Definition pend (v : nat) (t : pc) : list (nat * N) := match t with P0 ks => entries v ks | P1 k _ ks => inc2 v k ++ entries v ks | P2 _ _ _ ks => entries v ks end.
Definition held (t : pc) : list (nat * nat * (nat * N)) :=
  match t with
  | P0 _ => []
  | P1 k fd _ => [(fst (pair_of k), fd, (snd (pair_of k), tget k tab))]
  | P2 k fd sd _ => [(fst (pair_of k), fd, (snd (pair_of k), tget k tab)); (snd (pair_of k), sd, (fst (pair_of k), tget k tab))]
  end.
Definition tkeys (t : pc) : list N := match t with P0 ks => ks | P1 k _ ks => k :: ks | P2 k _ _ ks => k :: ks end.

Record inv2 (s : st2) (L : nat -> list (nat * N)) : Prop := {
  j_lc : length (d_cur s) = num; j_le : length (d_cells s) = size;
  j_cur : forall v, v < num -> nth v (d_cur s) 0 = start v + length (L v);
  j_perm : forall v, v < num -> Permutation (L v ++ flat_map (pend v) (d_thr s)) (entries v K);
  j_held : forall j v pos e, In (v, pos, e) (held (nth j (d_thr s) (P0 []))) -> v < num /\ exists i, i < length (L v) /\ pos = start v + i /\ nth i (L v) (0, 0%N) = e;
  j_cell : forall v i, v < num -> i < length (L v) -> nth (start v + i) (d_cells s) None = Some (nth i (L v) (0, 0%N)) \/
     exists j, In (v, start v + i, nth i (L v) (0, 0%N)) (held (nth j (d_thr s) (P0 [])));
  j_keys : forall j k, In k (tkeys (nth j (d_thr s) (P0 []))) -> In k K }.

Lemma claims_bound s L v : inv2 s L -> v < num -> length (L v) <= nth v deg 0.
Proof. intros I Hv. pose proof (Permutation_length (j_perm _ _ I v Hv)) as P. rewrite app_length, entries_len in P by exact HE. rewrite HD. lia. Qed.

(* a claim at v for the entry e *)
Lemma claim s L v e i t t' : inv2 s L -> v < num -> nth i (d_thr s) (P0 []) = t -> i < length (d_thr s) ->
  (forall u, u < num -> Permutation (pend u t) ((if u =? v then [e] else []) ++ pend u t')) -> held t' = held t ++ [(v, nth v (d_cur s) 0, e)] -> incl (tkeys t') (tkeys t) ->
  inv2 (mk_st2 (bump (d_cur s) v) (d_cells s) (upd (d_thr s) i t')) (fun u => if u =? v then L u ++ [e] else L u).
Proof.
  intros [A B C D E F G] Hv Ht Li HP HH HK. set (L' := fun u => if u =? v then L u ++ [e] else L u).
  assert (Lo : forall u k, k < length (L u) -> k < length (L' u) /\ nth k (L' u) (0, 0%N) = nth k (L u) (0, 0%N)) by (intros u k Q; unfold L'; destruct (u =? v); [rewrite app_length, app_nth1 by auto; cbn; split; [lia|auto]|auto]).
  assert (Cur : forall u, u < num -> nth u (bump (d_cur s) v) 0 = start u + length (L' u)). { intros u Hu. rewrite bump_nth by lia. rewrite C by auto. unfold L'. destruct (u =? v); [rewrite app_length; cbn; lia|lia]. }
  constructor; cbn [d_cur d_cells d_thr]; auto.
  - rewrite bump_len. auto.
  - intros u Hu. destruct (flat_upd (pend u) (d_thr s) i (P0 []) Li) as (rest & R1 & R2). rewrite R2, Ht in *. rewrite <- (D u Hu), R1, (HP u Hu). unfold L'. destruct (u =? v); cbn [app]; [|reflexivity]. rewrite <- app_assoc. cbn [app]. reflexivity.
  - intros j u pos x I. rewrite nth_upd in I. destruct (Nat.eqb_spec j i) as [->|]; cbn [andb] in I.
    + destruct (i <? length (d_thr s)).
      * rewrite HH in I. apply in_app_iff in I as [I|[I|[]]].
        -- rewrite <- Ht in I. destruct (E i u pos x I) as (U & k & Q1 & Q2 & Q3). split; [auto|]. exists k. destruct (Lo u k Q1) as [O1 O2]. rewrite O2. auto.
        -- injection I as <- <- <-. split; [auto|]. exists (length (L v)). unfold L'. rewrite Nat.eqb_refl, app_length, app_nth2, Nat.sub_diag by lia. cbn. split; [lia|]. split; [apply C; auto|auto].
      * destruct (E i u pos x I) as (U & k & Q1 & Q2 & Q3). split; [auto|]. exists k. destruct (Lo u k Q1) as [O1 O2]. rewrite O2. auto.
    + destruct (E j u pos x I) as (U & k & Q1 & Q2 & Q3). split; [auto|]. exists k. destruct (Lo u k Q1) as [O1 O2]. rewrite O2. auto.
  - intros u k Hu Hk. destruct (Nat.lt_ge_cases k (length (L u))) as [Q|Q].
    + destruct (Lo u k Q) as [_ O2]. rewrite O2. destruct (F u k Hu Q) as [X|(j & X)]; [left; auto|right]. exists j. rewrite nth_upd. destruct (Nat.eqb_spec j i) as [->|]; cbn [andb]; [|auto]. destruct (Nat.ltb_spec i (length (d_thr s))); [|auto]. rewrite HH, <- Ht. apply in_app_iff. auto.
    + right. exists i. rewrite nth_upd_eq by auto. rewrite HH. apply in_app_iff. right. left. unfold L' in *. destruct (Nat.eqb_spec u v) as [->|]; [|lia]. rewrite app_length in Hk. cbn in Hk. assert (k = length (L v)) as -> by lia. rewrite app_nth2, Nat.sub_diag by lia. cbn. rewrite C by auto. reflexivity.
  - intros j k I. rewrite nth_upd in I. destruct (Nat.eqb_spec j i) as [->|]; cbn [andb] in I; [|eapply G; eauto]. destruct (i <? length (d_thr s)); [apply (G i); rewrite Ht; auto|eapply G; eauto].
Qed.

Lemma step2_ok s L i : inv2 s L -> exists s' L', step2 tab s i = Some s' /\ inv2 s' L' /\ length (d_thr s') = length (d_thr s).
Proof.
  intro I. pose proof I as [A B C D E F G]. assert (Bd : forall v, v < num -> length (L v) <= nth v deg 0) by (intros; eapply claims_bound; eauto).
  unfold step2. destruct (nth i (d_thr s) (P0 [])) as [[|k ks]|k fd ks|k fd sd ks] eqn:Ht.
  - exists s, L. auto.
  - assert (Li : i < length (d_thr s)). { destruct (Nat.lt_ge_cases i (length (d_thr s))) as [|Q]; [auto|]. rewrite nth_overflow in Ht by auto. discriminate Ht. }
    assert (Ik : In k K) by (apply (G i); rewrite Ht; left; auto). destruct (HE k Ik) as (a & b & La & Lb & Ek). destruct (key_pair num a b S La Lb) as (P & _ & _). rewrite <- Ek in P. rewrite P, HT by auto. cbn [fst snd andb]. destruct (Nat.ltb_spec a (length (d_cur s))); [|lia].
    eexists. exists (fun u => if u =? a then L u ++ [(b, tget k tab)] else L u). split; [reflexivity|]. split; [|cbn [d_thr]; apply upd_length].
    apply (claim s L a (b, tget k tab) i (P0 (k :: ks))); auto; [lia| | |].
    + intros u Hu. cbn [pend entries flat_map]. unfold inc1, inc2. rewrite P. cbn [fst snd]. rewrite (Nat.eqb_sym u a). destruct (a =? u); reflexivity.
    + cbn [held]. rewrite P. reflexivity.
    + apply incl_refl.
  - assert (Li : i < length (d_thr s)). { destruct (Nat.lt_ge_cases i (length (d_thr s))) as [|Q]; [auto|]. rewrite nth_overflow in Ht by auto. discriminate Ht. }
    assert (Ik : In k K) by (apply (G i); rewrite Ht; left; auto). destruct (HE k Ik) as (a & b & La & Lb & Ek). destruct (key_pair num a b S La Lb) as (P & _ & _). rewrite <- Ek in P. rewrite P. cbn [fst snd]. destruct (Nat.ltb_spec b (length (d_cur s))); [|lia].
    eexists. exists (fun u => if u =? b then L u ++ [(a, tget k tab)] else L u). split; [reflexivity|]. split; [|cbn [d_thr]; apply upd_length].
    apply (claim s L b (a, tget k tab) i (P1 k fd ks)); auto.
    + intros u Hu. cbn [pend]. unfold inc2. rewrite P. cbn [fst snd]. rewrite (Nat.eqb_sym u b). reflexivity.
    + cbn [held]. rewrite P. reflexivity.
    + apply incl_refl.
  - assert (Li : i < length (d_thr s)). { destruct (Nat.lt_ge_cases i (length (d_thr s))) as [|Q]; [auto|]. rewrite nth_overflow in Ht by auto. discriminate Ht. }
    set (a := fst (pair_of k)) in *. set (b := snd (pair_of k)) in *. set (ea := (b, tget k tab)). set (eb := (a, tget k tab)).
    destruct (E i a fd ea) as (Va & ia & La & -> & Na); [rewrite Ht; left; auto|]. destruct (E i b sd eb) as (Vb & ib & Lb & -> & Nb); [rewrite Ht; right; left; auto|].
    pose proof (start_next a Va) as [Sa _]. pose proof (start_next b Vb) as [Sb _]. pose proof (Bd a Va). pose proof (Bd b Vb).
    destruct (Nat.ltb_spec (start a + ia) (length (d_cells s))); [|lia]. destruct (Nat.ltb_spec (start b + ib) (length (d_cells s))); [|lia]. cbn [andb].
    eexists. exists L. split; [reflexivity|]. split; [|cbn [d_thr]; apply upd_length]. constructor; cbn [d_cur d_cells d_thr]; rewrite ?upd_length; auto.
    + intros v Hv. destruct (flat_upd (pend v) (d_thr s) i (P0 []) Li) as (rest & R1 & R2). rewrite R2. rewrite <- (D v Hv), R1, Ht. reflexivity.
    + intros j v pos e J. rewrite nth_upd in J. destruct (Nat.eqb_spec j i) as [->|]; cbn [andb] in J; [|eapply E; eauto]. destruct (Nat.ltb_spec i (length (d_thr s))); [destruct J|eapply E; eauto].
    + intros v k' Hv Hk. pose proof (Bd v Hv) as Bv. destruct (Nat.eq_dec (start v + k') (start b + ib)) as [Q|Q].
      * left. rewrite Q, nth_upd_eq by (rewrite upd_length; auto). apply place_inj in Q; auto; [|lia|lia]. destruct Q as [-> ->]. rewrite Nb. reflexivity.
      * rewrite nth_upd_neq by auto. destruct (Nat.eq_dec (start v + k') (start a + ia)) as [Q'|Q'].
        -- left. rewrite Q', nth_upd_eq by auto. apply place_inj in Q'; auto; [|lia|lia]. destruct Q' as [-> ->]. rewrite Na. reflexivity.
        -- rewrite nth_upd_neq by auto. destruct (F v k' Hv Hk) as [X|(j & X)]; [left; auto|right]. exists j. rewrite nth_upd. destruct (Nat.eqb_spec j i) as [->|]; cbn [andb]; [|auto]. exfalso. rewrite Ht in X. destruct X as [X|[X|[]]]; injection X as _ X _; congruence.
    + intros j k' J. rewrite nth_upd in J. destruct (Nat.eqb_spec j i) as [->|]; cbn [andb] in J; [|eapply G; eauto]. apply (G i). rewrite Ht. destruct (Nat.ltb_spec i (length (d_thr s))); [right; auto|lia].
Qed.
Lemma run2_ok : forall sched s L, inv2 s L -> exists s' L', run2 tab s sched = Some s' /\ inv2 s' L' /\ length (d_thr s') = length (d_thr s).
Proof. induction sched as [|i sched IH]; intros s L I; cbn [run2]; [exists s, L; auto|]. destruct (step2_ok s L i I) as (s1 & L1 & -> & I1 & E1). destruct (IH s1 L1 I1) as (s' & L' & E & I' & E'). exists s', L'. split; [exact E|]. split; [auto|lia]. Qed.

Lemma nth_skipn {A} (l : list A) k i d : nth i (skipn k l) d = nth (k + i) l d.
Proof. revert l. induction k as [|k IH]; intros [|x l]; cbn [skipn plus]; auto; [destruct i; reflexivity|]. rewrite IH. reflexivity. Qed.
Lemma nth_firstn_lt {A} (l : list A) k i d : i < k -> nth i (firstn k l) d = nth i l d.
Proof. revert l i. induction k as [|k IH]; intros [|x l] [|i] H; try lia; cbn; auto. apply IH. lia. Qed.
(** at the end every edge list is complete *)
Lemma finished s L : inv2 s L -> done2 s -> length (rows_of deg s) = num /\ forall v, v < num -> Permutation (nth v (rows_of deg s) []) (entries v K).
Proof.
  intros I Dn. assert (LR : length (rows_of deg s) = num) by (unfold rows_of; rewrite map_length, seq_length; auto). split; [exact LR|]. intros v Hv.
  assert (Z : flat_map (pend v) (d_thr s) = []). { unfold done2 in Dn. clear -Dn. induction (d_thr s) as [|t l IH]; [reflexivity|]. cbn [flat_map]. pose proof (Dn 0) as D0. cbn in D0. rewrite D0. cbn [pend entries flat_map app]. apply IH. intro i. apply (Dn (Datatypes.S i)). }
  pose proof (j_perm _ _ I v Hv) as P. rewrite Z, app_nil_r in P. rewrite <- P.
  assert (LL : length (L v) = nth v deg 0) by (rewrite (Permutation_length P), entries_len by exact HE; symmetry; apply HD). pose proof (start_next v Hv) as [Sv _].
  unfold rows_of. set (f := fun v0 => _). rewrite (nth_indep _ [] (f 0)) by (rewrite map_length, seq_length; lia). rewrite map_nth, seq_nth by lia. cbn [plus]. unfold f.
  match goal with |- Permutation ?x _ => assert (Q : x = L v); [|rewrite Q; reflexivity] end.
  assert (Ln : length (firstn (nth v deg 0) (skipn (nth v (starts 0 deg) 0) (d_cells s))) = length (L v)). { rewrite firstn_length, skipn_length, (j_le _ _ I). unfold start in Sv. lia. }
  apply (nth_ext _ _ (0, 0%N) (0, 0%N)); [rewrite map_length; exact Ln|]. intros i Hi. rewrite map_length in Hi.
  etransitivity; [apply (map_nth (fun c : option (nat * N) => match c with Some e => e | None => (0, 0%N) end) _ None)|]. rewrite nth_firstn_lt, nth_skipn by lia.
  destruct (j_cell _ _ I v i Hv ltac:(lia)) as [X|(j & X)]; [|rewrite Dn in X; destruct X]. unfold start in X. rewrite X. reflexivity.
Qed.

(** the start *)
Lemma start_ok keys : Permutation (concat keys) K -> inv2 (mk_st2 (starts 0 deg) (repeat None size) (map P0 keys)) (fun _ => []).
Proof.
  intro P. assert (Nt : forall j, exists ks, nth j (map P0 keys) (P0 []) = P0 ks /\ forall k, In k ks -> In k K).
  { intro j. exists (nth j keys []). split; [apply (map_nth P0)|]. intros k I. apply (Permutation_in _ P). destruct (Nat.lt_ge_cases j (length keys)) as [Q|Q]; [|rewrite nth_overflow in I by auto; destruct I]. apply in_concat. exists (nth j keys []). split; [apply nth_In; auto|auto]. }
  constructor; cbn [d_cur d_cells d_thr].
  - rewrite starts_len. exact LD.
  - apply repeat_length.
  - intros v Hv. cbn. unfold start. lia.
  - intros v Hv. cbn [app]. rewrite flat_map_concat_map, map_map. cbn [pend]. assert (Q : concat (map (fun ks => entries v ks) keys) = entries v (concat keys)). { clear. induction keys as [|ks l IH]; [reflexivity|]. cbn [map concat]. unfold entries in *. rewrite flat_map_app, IH. reflexivity. }
    rewrite Q. unfold entries. apply Permutation_flat_map. exact P.
  - intros j v pos e I. destruct (Nt j) as (ks & Q & _). rewrite Q in I. destruct I.
  - intros v i Hv Hi. cbn in Hi. lia.
  - intros j k I. destruct (Nt j) as (ks & Q & H). rewrite Q in I. auto.
Qed.
End Two.
