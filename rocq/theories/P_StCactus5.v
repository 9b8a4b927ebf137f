(* P_StCactus5.v - proofs about findSTCactus, part 5: the order in which the queue returns the components. *)
From Verif Require Import SpecCut SpecDyn SpecPQ SpecMutable M_Mutable P_Mutable P_Cut M_BucketPQ P_BucketPQ P_LocalSearch2 P_AllMincuts M_StCactus P_Crossing P_StCactus P_StCactus2 P_StCactus3 P_StCactus4.

Lemma foldo_app {A B} (f : A -> B -> option A) l1 : forall l2 a, fold_opt f (l1 ++ l2) a = match fold_opt f l1 a with Some a' => fold_opt f l2 a' | None => None end.
Proof. induction l1 as [|x l1 IH]; intros l2 a; cbn; [reflexivity|]. destruct (f a x); auto. Qed.

Lemma nodup_l {A} (l1 l2 : list A) : NoDup (l1 ++ l2) -> NoDup l1.
Proof. induction l1 as [|x l1 IH]; cbn; intro H; [constructor|]. inversion H; subst. constructor; [|auto]. intro Q. apply H2. apply in_or_app. auto. Qed.
Lemma nodup_r {A} (l1 l2 : list A) : NoDup (l1 ++ l2) -> NoDup l2.
Proof. induction l1 as [|x l1 IH]; cbn; intro H; [auto|]. inversion H; subst. auto. Qed.

(** ** a vertex x is added to the side T *)
Definition plus1 (T : nat -> bool) (x u : nat) : bool := T u || (u =? x).
Lemma btw_single n W u v : u < n -> v < n -> btw n W (Nat.eqb u) (Nat.eqb v) = W u v.
Proof. intros Hu Hv. rewrite btw_at by auto. rewrite <- (bsum_single n (W u) v Hv). apply bsum_ext. intros x Hx. rewrite Nat.eqb_sym. reflexivity. Qed.
Lemma key_plus n W T x u : x < n -> u < n -> T x = false -> btw n W (plus1 T x) (Nat.eqb u) = (btw n W T (Nat.eqb u) + W x u)%N.
Proof.
  intros Hx Hu Tx. rewrite (btw_l n W (plus1 T x) T (Nat.eqb x)); [rewrite btw_single by auto; reflexivity|]. intros v Hv. unfold plus1. rewrite (Nat.eqb_sym v x). destruct (Nat.eqb_spec x v) as [<-|]; [rewrite Tx; reflexivity|]. destruct (T v); reflexivity.
Qed.
Lemma key_le n W T u : u < n -> T u = false -> (btw n W T (Nat.eqb u) <= cutw n W T)%N.
Proof. intros Hu Tu. rewrite cutw_btw. apply btw_le; [auto|]. intros x Hx E. apply Nat.eqb_eq in E. subst. rewrite Tu. reflexivity. Qed.
(** the two heaviest connections of T *)
Lemma two_keys n W T u v : u < n -> v < n -> u <> v -> T u = false -> T v = false -> (btw n W T (Nat.eqb u) + btw n W T (Nat.eqb v) <= cutw n W T)%N.
Proof.
  intros Hu Hv Ne Tu Tv. rewrite cutw_btw. rewrite <- (btw_r n W T (fun x => (x =? u) || (x =? v))).
  - apply btw_le; [auto|]. intros x Hx E. apply orb_true_iff in E. destruct E as [E|E]; apply Nat.eqb_eq in E; subst; [rewrite Tu|rewrite Tv]; reflexivity.
  - intros x Hx. rewrite (Nat.eqb_sym x u), (Nat.eqb_sym x v). destruct (Nat.eqb_spec u x), (Nat.eqb_spec v x); cbn; lia.
Qed.
Lemma three_keys n W T u v w : u < n -> v < n -> w < n -> u <> v -> u <> w -> v <> w -> T u = false -> T v = false -> T w = false ->
  (btw n W T (Nat.eqb u) + btw n W T (Nat.eqb v) + btw n W T (Nat.eqb w) <= cutw n W T)%N.
Proof.
  intros Hu Hv Hw N1 N2 N3 Tu Tv Tw. rewrite cutw_btw. rewrite <- (btw_r n W T (fun x => (x =? u) || (x =? v)) (Nat.eqb u) (Nat.eqb v)).
  - rewrite <- (btw_r n W T (fun x => (x =? u) || (x =? v) || (x =? w))).
    + apply btw_le; [auto|]. intros x Hx E. apply orb_true_iff in E. destruct E as [E|E]; [apply orb_true_iff in E; destruct E as [E|E]|]; apply Nat.eqb_eq in E; subst; [rewrite Tu|rewrite Tv|rewrite Tw]; reflexivity.
    + intros x Hx. rewrite (Nat.eqb_sym x u), (Nat.eqb_sym x v), (Nat.eqb_sym x w). destruct (Nat.eqb_spec u x), (Nat.eqb_spec v x), (Nat.eqb_spec w x); cbn; lia.
  - intros x Hx. rewrite (Nat.eqb_sym x u), (Nat.eqb_sym x v). destruct (Nat.eqb_spec u x), (Nat.eqb_spec v x); cbn; lia.
Qed.
(** both T and T+x are minimum cuts *)
Lemma half_key n W c T x : symm n W -> x < n -> T x = false -> cutw n W T = c -> cutw n W (plus1 T x) = c -> (2 * btw n W T (Nat.eqb x) = cutw n W (Nat.eqb x))%N.
Proof.
  intros Sy Hx Tx E1 E2. set (R := fun v => negb (plus1 T x v)).
  assert (A1 : cutw n W T = (btw n W T (Nat.eqb x) + btw n W T R)%N).
  { rewrite cutw_btw. apply btw_r. intros v Hv. unfold R, plus1. rewrite (Nat.eqb_sym v x). destruct (Nat.eqb_spec x v) as [<-|]; [rewrite Tx; reflexivity|]. destruct (T v); reflexivity. }
  assert (A2 : cutw n W (plus1 T x) = (btw n W T R + btw n W (Nat.eqb x) R)%N).
  { rewrite cutw_btw. apply btw_l. intros v Hv. unfold plus1. rewrite (Nat.eqb_sym v x). destruct (Nat.eqb_spec x v) as [<-|]; [rewrite Tx; reflexivity|]. destruct (T v); reflexivity. }
  assert (A3 : cutw n W (Nat.eqb x) = (btw n W (Nat.eqb x) T + btw n W (Nat.eqb x) R)%N).
  { rewrite cutw_btw. apply btw_r. intros v Hv. unfold R, plus1. rewrite (Nat.eqb_sym v x). destruct (Nat.eqb_spec x v) as [<-|]; [rewrite Tx; reflexivity|]. destruct (T v); reflexivity. }
  rewrite (btw_sym n W (Nat.eqb x) T Sy) in A3. lia.
Qed.
Lemma proper_one n x : x < n -> 2 <= n -> proper n (Nat.eqb x).
Proof. intros Hx Hn. split; [exists x; split; [auto|apply Nat.eqb_refl]|]. destruct x; [exists 1|exists 0]; split; auto; lia. Qed.

(** ** the queue *)
Section Queue.
Context (n : nat) (W : wfun) (c : N) (Hc : (c < 4294967296)%N) (rows : list (list half)).
Context (Hrows : forall x, x < n -> pairs_of (nth x rows []) = map (fun b => (b, W x b)) (filter (fun b => negb (b =? x)) (seq 0 n))).

Definition span := N.to_nat c + 1.
Definition keyed (q : bq) (R : nat -> bool) (K : nat -> N) : Prop := wfb false n span q /\ forall u, babs q u = if (u <? n) && R u then Some (K u) else None.
Definition ontop (q : bq) (K : nat -> N) (z : nat) : Prop := last (bkt q (N.to_nat (K z) + span)) 0 = z.

Lemma change_top q v k : wfb false n span q -> v < n -> babs q v <> None -> (k <= c)%N ->
  exists q', bq_change_key false q v k = Some q' /\ wfb false n span q' /\ (forall u, babs q' u = qset (babs q) v (Some k) u) /\ last (bkt q' (N.to_nat k + span)) 0 = v.
Proof.
  intros Wf Vn H K. assert (K32 : key32 k = k) by (apply N.mod_small; lia). destruct (delete_node_any _ _ _ _ _ Wf H) as [s1 [E1 [W1 A1]]].
  assert (N1 : babs s1 v = None) by (rewrite A1; unfold qset; rewrite Nat.eqb_refl; reflexivity).
  destruct (bq_insert_ok false n span s1 v k W1 Vn N1) as [s2 [E2 [W2 [A2 [_ B2]]]]]. { rewrite K32. unfold span. lia. }
  rewrite K32 in *. exists s2. unfold bq_change_key. rewrite E1. split; [exact E2|]. split; [exact W2|]. split.
  - intro u. rewrite A2. unfold qset. destruct (Nat.eqb_spec u v) as [->|U]; [reflexivity|]. rewrite A1. unfold qset. apply Nat.eqb_neq in U. rewrite U. reflexivity.
  - rewrite B2, Nat.eqb_refl. apply last_last.
Qed.

Definition inl (l : list nat) (u : nat) : bool := existsb (Nat.eqb u) l.
Lemma keys_fold (stp : bq -> half -> option bq) (R : nat -> bool) (K0 w : nat -> N) :
  forall tl row, pairs_of row = map (fun b => (b, w b)) tl -> NoDup tl -> (forall b, In b tl -> b < n) ->
  (forall q h, In h row -> fst (fst h) < n -> babs q (fst (fst h)) = (if R (fst (fst h)) then Some (K0 (fst (fst h))) else None) -> wfb false n span q ->
     stp q h = if R (fst (fst h)) then bq_change_key false q (fst (fst h)) (K0 (fst (fst h)) + snd (fst h)) else Some q) ->
  (forall u, In u tl -> R u = true -> (K0 u + w u <= c)%N) ->
  forall q K, keyed q R K -> (forall u, In u tl -> K u = K0 u) ->
  exists q', fold_opt stp row q = Some q' /\ keyed q' R (fun u => if inl tl u then (K0 u + w u)%N else K u) /\
    ((forall u, In u tl -> R u = false) -> q' = q).
Proof.
  induction tl as [|b tl IH]; intros row Er ND Bd Hs Hk q K Kq Same.
  - destruct row; [|discriminate Er]. exists q. split; [reflexivity|]. split; [exact Kq|auto].
  - destruct row as [|h row]; [discriminate Er|]. cbn [pairs_of map] in Er. injection Er as Eb Ew Er. fold (pairs_of row) in Er.
    apply NoDup_cons_iff in ND. destruct ND as [Nb ND]. cbn [fold_opt].
    assert (Bn : b < n) by (apply Bd; left; auto). destruct Kq as [Wf Ab]. assert (Kb : K b = K0 b) by (apply Same; left; auto).
    assert (Abb : babs q b = if R b then Some (K0 b) else None). { rewrite Ab, Kb. destruct (Nat.ltb_spec b n); [reflexivity|lia]. }
    rewrite Hs; auto. 2: left; auto. 2,3: rewrite Eb; auto. rewrite Eb. destruct (R b) eqn:Rb.
    + destruct (change_top q b (K0 b + w b) Wf Bn) as (q1 & E1 & W1 & A1 & T1). { rewrite Abb. discriminate. } { apply Hk; [left; auto|auto]. }
      rewrite Ew, E1. destruct (IH row Er ND) with (q := q1) (K := fun u => if u =? b then (K0 b + w b)%N else K u) as (q' & E' & K' & _).
      * intros x Hx. apply Bd. right. auto.
      * intros q0 h0 Ih. apply Hs. right. auto.
      * intros u Hu. apply Hk. right. auto.
      * split; [exact W1|]. intro u. rewrite A1. unfold qset. destruct (Nat.eqb_spec u b) as [->|]; [|apply Ab]. rewrite Rb. destruct (Nat.ltb_spec b n); [reflexivity|lia].
      * intros u Hu. destruct (Nat.eqb_spec u b) as [->|]; [contradiction|]. apply Same. right. auto.
      * exists q'. split; [exact E'|]. split.
        -- destruct K' as [W' A']. split; [exact W'|]. intro u. rewrite A'. unfold inl. cbn [existsb]. destruct (Nat.eqb_spec u b) as [->|]; cbn [orb]; [|reflexivity].
           destruct (existsb (Nat.eqb b) tl); reflexivity.
        -- intro Q. rewrite Q in Rb by (left; auto). discriminate Rb.
    + destruct (IH row Er ND) with (q := q) (K := K) as (q' & E' & K' & Z').
      * intros x Hx. apply Bd. right. auto.
      * intros q0 h0 Ih. apply Hs. right. auto.
      * intros u Hu. apply Hk. right. auto.
      * split; auto.
      * intros u Hu. apply Same. right. auto.
      * exists q'. split; [exact E'|]. split.
        -- destruct K' as [W' A']. split; [exact W'|]. intro u. rewrite A'. unfold inl. cbn [existsb]. destruct (Nat.eqb_spec u b) as [->|]; cbn [orb]; [|reflexivity]. rewrite Rb, andb_false_r. reflexivity.
        -- intro Q. apply Z'. intros u Hu. apply Q. right. auto.
Qed.

(** all neighbours of x are updated, the last one of them still in the queue ends on top of its bucket *)
Lemma keys_row (stp : bq -> half -> option bq) (R : nat -> bool) (K : nat -> N) x : x < n -> R x = false ->
  (forall q h, In h (nth x rows []) -> fst (fst h) < n -> babs q (fst (fst h)) = (if R (fst (fst h)) then Some (K (fst (fst h))) else None) -> wfb false n span q ->
     stp q h = if R (fst (fst h)) then bq_change_key false q (fst (fst h)) (K (fst (fst h)) + snd (fst h)) else Some q) ->
  (forall u, u < n -> R u = true -> (K u + W x u <= c)%N) -> forall q, keyed q R K ->
  exists q', fold_opt stp (nth x rows []) q = Some q' /\ keyed q' R (fun u => (K u + W x u)%N) /\
    forall z, z < n -> R z = true -> (forall u, u < n -> R u = true -> u <= z) -> ontop q' (fun u => (K u + W x u)%N) z.
Proof.
  intros Hx Rx Hs Hk q Kq. set (tg := filter (fun b => negb (b =? x)) (seq 0 n)). assert (In_tg : forall u, In u tg <-> u < n /\ u <> x).
  { intro u. unfold tg. rewrite filter_In, in_seq, negb_true_iff, Nat.eqb_neq. lia. }
  assert (NDt : NoDup tg) by apply NoDup_filter, seq_NoDup.
  destruct (keys_fold stp R K (W x) tg (nth x rows []) (Hrows x Hx) NDt) with (q := q) (K := K) as (q' & E & K' & _); auto.
  { intros b Hb. apply In_tg in Hb. lia. } { intros u Hu. apply In_tg in Hu. apply Hk. lia. }
  exists q'. split; [exact E|]. split.
  - destruct K' as [W' A']. split; [exact W'|]. intro u. rewrite A'. destruct (Nat.ltb_spec u n); [|reflexivity]. destruct (R u) eqn:Ru; [|reflexivity]. cbn [andb]. f_equal.
    assert (inl tg u = true) as ->; [|reflexivity]. apply existsb_exists. exists u. split; [|apply Nat.eqb_refl]. apply In_tg. split; [auto|]. congruence.
  - intros z Hz Rz Mz. assert (Iz : In z tg) by (apply In_tg; split; [auto|congruence]).
    destruct (in_split _ _ Iz) as (t1 & t2 & Et).
    assert (T2 : forall u, In u t2 -> R u = false).
    { intros u Hu. destruct (R u) eqn:Ru; [|auto]. exfalso. assert (Iu : In u tg) by (rewrite Et; apply in_or_app; right; right; auto). apply In_tg in Iu.
      assert (u <= z) by (apply Mz; [lia|auto]). assert (Sorted.StronglySorted lt tg) as SS. { unfold tg. clear. generalize 0 as a. induction n as [|m IHm]; intro a; cbn; [constructor|]. destruct (negb (a =? x)); [|apply IHm]. constructor; [apply IHm|]. apply Forall_forall. intros y Hy. apply filter_In in Hy. destruct Hy as [Hy _]. apply in_seq in Hy. lia. }
      rewrite Et in SS. assert (z < u); [|lia]. clear - SS Hu. induction t1 as [|y t1 IH]; cbn in SS; inversion SS; subst; [|auto]. rewrite Forall_forall in H2. apply H2. auto. }
    pose proof (Hrows x Hx) as HR. fold tg in HR. rewrite Et, map_app in HR. unfold pairs_of in HR. apply map_eq_app in HR. destruct HR as (r1 & r2 & Er & Er1 & Er2).
    destruct r2 as [|h r2]; [discriminate Er2|]. cbn [map] in Er2. injection Er2 as Ez Ew Er2.
    rewrite Er, foldo_app in E. rewrite Et in NDt.
    destruct (keys_fold stp R K (W x) t1 r1 Er1) with (q := q) (K := K) as (q1 & E1 & K1 & _); auto.
    { apply nodup_l in NDt. auto. } { intros b Hb. apply (In_tg b). rewrite Et. apply in_or_app; auto. }
    { intros q0 h0 Ih. apply Hs. rewrite Er. apply in_or_app; auto. } { intros u Hu. apply Hk. apply (In_tg u). rewrite Et. apply in_or_app; auto. }
    assert (Nz1 : inl t1 z = false). { destruct (inl t1 z) eqn:Q; [|auto]. exfalso. apply existsb_exists in Q. destruct Q as (y & Hy & Ey). apply Nat.eqb_eq in Ey. subst y. apply NoDup_remove_2 in NDt. apply NDt. apply in_or_app; auto. }
    rewrite E1 in E. cbn [fold_opt] in E. destruct K1 as [W1 A1]. assert (Az : babs q1 z = Some (K z)). { rewrite A1, Rz, Nz1. destruct (Nat.ltb_spec z n); [reflexivity|lia]. }
    rewrite Hs in E; auto. 2: rewrite Er; apply in_or_app; right; left; auto. 2: rewrite Ez; auto. 2: rewrite Ez, Rz; auto. rewrite Ez, Rz, Ew in E.
    destruct (change_top q1 z (K z + W x z) W1 Hz) as (q2 & E2 & W2 & A2 & Tz). { rewrite Az. discriminate. } { apply Hk; auto. }
    rewrite E2 in E. destruct (keys_fold stp R K (W x) t2 r2 Er2) with (q := q2) (K := fun u => if u =? z then (K z + W x z)%N else if inl t1 u then (K u + W x u)%N else K u) as (q3 & E3 & _ & Z3).
    { apply nodup_r in NDt. apply NoDup_cons_iff in NDt. apply NDt. } { intros b Hb. apply (In_tg b). rewrite Et. apply in_or_app; right; right; auto. }
    { intros q0 h0 Ih. apply Hs. rewrite Er. apply in_or_app; right; right; auto. } { intros u Hu. apply Hk. apply (In_tg u). rewrite Et. apply in_or_app; right; right; auto. }
    { split; [exact W2|]. intro u. rewrite A2. unfold qset. destruct (Nat.eqb_spec u z) as [->|]; [|apply A1]. rewrite Rz. destruct (Nat.ltb_spec z n); [reflexivity|lia]. }
    { intros u Hu. destruct (Nat.eqb_spec u z) as [->|]; [rewrite T2 in Rz by auto; discriminate Rz|]. destruct (inl t1 u) eqn:Q; [|reflexivity]. exfalso. apply existsb_exists in Q. destruct Q as (y & Hy & Ey). apply Nat.eqb_eq in Ey. subst y.
      apply in_split in Hu. destruct Hu as (a1 & a2 & ->). rewrite app_comm_cons, app_assoc in NDt. apply NoDup_remove_2 in NDt. apply NDt. apply in_or_app. left. apply in_or_app. auto. }
    rewrite (Z3 T2) in E3. rewrite E3 in E. injection E as <-. exact Tz.
Qed.

(** ** the state of the queue when the vertices of T have left it *)
Definition key (T : nat -> bool) (u : nat) : N := btw n W T (Nat.eqb u).
Definition qstate (q : bq) (T : nat -> bool) : Prop :=
  keyed q (fun u => negb (T u)) (key T) /\ forall z, z < n -> T z = false -> (forall u, u < n -> T u = false -> u <= z) -> ontop q (key T) z.

(** the vertex which is taken next *)
Definition pick (T : nat -> bool) (x : nat) : Prop :=
  x < n /\ T x = false /\
  ((forall u, u < n -> T u = false -> u <> x -> (key T u < key T x)%N) \/
   ((forall u, u < n -> T u = false -> u <= x) /\ forall u, u < n -> T u = false -> (key T u <= key T x)%N)).

Lemma take_step q T x : qstate q T -> pick T x -> (forall u, u < n -> plus1 T x u = false -> (key (plus1 T x) u <= c)%N) ->
  exists q1 q2, bq_delete_max false q = Some (q1, x) /\ fold_opt (sc_key c) (nth x rows []) q1 = Some q2 /\ qstate q2 (plus1 T x).
Proof.
  intros [[Wf Ab] Tp] (Hx & Tx & Pk) Hk. assert (Abx : babs q x = Some (key T x)). { rewrite Ab, Tx. destruct (Nat.ltb_spec x n); [reflexivity|lia]. }
  assert (NE : nonempty (babs q)) by (exists x; eauto). destruct (lifo_delete_max_ok n span q Wf NE) as (q1 & v & E1 & W1 & (k & Mk) & Ev & A1).
  assert (Vx : v = x).
  { destruct Mk as [Mv Mx]. assert (v < n /\ T v = false) as [Vn Tv]. { rewrite Ab in Mv. destruct (Nat.ltb_spec v n); [|discriminate Mv]. destruct (T v); [discriminate Mv|auto]. }
    assert (k = key T v). { rewrite Ab, Tv in Mv. destruct (Nat.ltb_spec v n); [|lia]. cbn in Mv. congruence. } subst k.
    destruct Pk as [St|[Lg Mxx]].
    - destruct (Nat.eq_dec v x) as [|Ne]; [auto|]. specialize (St v Vn Tv Ne). specialize (Mx x _ Abx). lia.
    - specialize (Tp x Hx Tx Lg). unfold ontop in Tp. rewrite Ev. refine (eq_trans _ Tp). f_equal. f_equal.
      assert (Ek : key T v = key T x). { apply N.le_antisymm; [apply Mxx; auto|apply (Mx x); auto]. }
      destruct Wf as [I _]. pose proof (nonempty_top _ _ _ I NE) as Lt. assert (Lt' : length (bkt q (bq_mx q)) - 1 < length (bkt q (bq_mx q))) by lia.
      destruct (top_is_max n span q _ I Lt') as [Q _]. destruct (at_top n span q _ I Lt') as (_ & Sp & _). rewrite <- last_nth, <- Ev, Mv in Q. injection Q as Q. rewrite Q in Ek. rewrite <- Ek. lia. }
  subst v. rewrite Vx in *. clear Vx. exists q1. unfold bq_delete_max. rewrite E1.
  assert (Rx : (fun u => negb (plus1 T x u)) x = false) by (unfold plus1; rewrite Nat.eqb_refl, orb_true_r; reflexivity).
  destruct (keys_row (sc_key c) (fun u => negb (plus1 T x u)) (key T) x Hx Rx) with (q := q1) as (q2 & E2 & K2 & T2).
  - intros q0 h Ih Hh Eh Wh. unfold sc_key. destruct Wh as [Ih0 _]. rewrite (nth_error_nth' (bq_ix q0) (None, 0%N)) by (rewrite (b_ixl _ _ _ Ih0); auto). fold (bix q0 (fst (fst h))).
    unfold babs in Eh. destruct (bix q0 (fst (fst h))) as [o kk] eqn:Eb. cbn [fst snd] in Eh. destruct o as [o|]; destruct (negb (plus1 T x (fst (fst h)))) eqn:Rh; try discriminate Eh; [|reflexivity].
    injection Eh as ->. f_equal. apply N.min_l. apply negb_true_iff in Rh. specialize (Hk _ Hh Rh). unfold key in *. rewrite key_plus in Hk by auto.
    assert (snd (fst h) = W x (fst (fst h))) as ->; [|exact Hk]. assert (Ip : In (fst (fst h), snd (fst h)) (pairs_of (nth x rows []))) by (unfold pairs_of; apply in_map_iff; eauto).
    rewrite Hrows in Ip by auto. apply in_map_iff in Ip. destruct Ip as (b & E & _). injection E as E' E''. rewrite <- E', <- E''. reflexivity.
  - intros u Hu Ru. apply negb_true_iff in Ru. specialize (Hk u Hu Ru). unfold key in *. rewrite key_plus in Hk by auto. exact Hk.
  - split; [exact W1|]. intro u. rewrite A1. unfold qset, plus1. destruct (Nat.eqb_spec u x) as [->|]; [rewrite orb_true_r, andb_false_r; reflexivity|]. rewrite orb_false_r. apply Ab.
  - exists q2. split; [reflexivity|]. split; [exact E2|]. assert (KE : forall u, u < n -> (key T u + W x u)%N = key (plus1 T x) u) by (intros u Hu; unfold key; rewrite key_plus; auto). split.
    + destruct K2 as [W2 A2]. split; [exact W2|]. intro u. rewrite A2. destruct (Nat.ltb_spec u n); [|reflexivity]. rewrite KE by auto. reflexivity.
    + intros z Hz Tz Mz. unfold ontop. rewrite <- KE by auto. apply T2; auto; [rewrite Tz; reflexivity|]. intros u Hu Ru. apply Mz; auto. apply negb_true_iff. exact Ru.
Qed.
End Queue.
