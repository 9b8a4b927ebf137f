(* P_Flow2.v - proofs about push_relabel: pushes, discharge, gap heuristic and relabel keep the invariant. *)
From Verif Require Import SpecCut LibZ P_Mutable M_PushRelabel P_Flow P_MutableIO.

Notation dist s v := (nth v (p_ds s) 0).
Notation exc s v := (nth v (p_ex s) 0%Z).
Notation flo s v e := (eflow (p_fl s) v e).

(** every residual edge drops by at most one level *)
Definition labv (R : list (list half)) (fl : list (list Z)) (ds : list nat) : Prop :=
  forall v e t w r, slot R v e = Some (t, w, r) -> (eflow fl v e < Z.of_N w)%Z -> nth v ds 0 <= S (nth t ds 0).

(** the queue holds exactly the active non-terminals, and every non-terminal with excess except the hole *)
Record qinv (n : nat) (ts : list nat) (ex : list Z) (ac : list bool) (q : list nat) (hole : nat) : Prop := {
  q_len : length ac = n;
  q_nd : NoDup q;
  q_in : forall v, In v q -> v < n /\ ~ In v ts;
  q_ac : forall v, v < n -> (nth v ac false = true <-> In v ts \/ In v q);
  q_ex : forall v, v < n -> ~ In v ts -> v <> hole -> (0 < nth v ex 0)%Z -> In v q }.

(** number of vertices on a level *)
Definition at_level (n : nat) (ds : list nat) (l : nat) : Z := zsum n (fun v => if nth v ds 0 =? l then 1%Z else 0%Z).

Record linv (n : nat) (ts : list nat) (src : nat) (ds : list nat) (ct : list Z) : Prop := {
  l_len : length ds = n;
  l_src : nth src ds 0 = n;
  l_snk : forall t, In t ts -> t <> src -> nth t ds 0 = 0;
  l_ge1 : forall v, v < n -> ~ In v ts -> 1 <= nth v ds 0;
  l_lt : forall v, v < n -> nth v ds 0 < 2 * n;
  l_clen : length ct = 2 * n;
  l_cnt : forall l, 1 <= l < n -> (at_level n ds l <= nth l ct 0)%Z }.

(** * enqueue *)
Lemma enqueue_q n ts ex ac q hole fl ds ct t : qinv n ts ex ac q hole -> t < n ->
  let s := enqueue t (mk_prs fl ex ds ac ct q) in
  p_fl s = fl /\ p_ex s = ex /\ p_ds s = ds /\ p_ct s = ct /\
  qinv n ts ex (p_ac s) (p_q s) (if Nat.eqb hole t then n else hole) /\
  exists new, p_q s = q ++ new /\ forall x, In x new -> x = t.
Proof.
  intros Q Ht. unfold enqueue. cbn [p_ac p_ex p_fl p_ds p_ct p_q]. destruct (nth t ac false) eqn:A.
  - cbn. do 4 (split; [reflexivity|]). split; [|exists []; split; [rewrite app_nil_r; reflexivity|intros ? []]].
    destruct Q as [Q1 Q2 Q3 Q4 Q5]. constructor; auto. intros v Hv Nv Nh P. destruct (Nat.eqb_spec hole t) as [->|N]; [|auto].
    destruct (Nat.eq_dec v t) as [->|Nvt]; [|auto]. apply Q4 in A; [|auto]. tauto.
  - destruct (Z.ltb_spec 0%Z (nth t ex 0%Z)) as [P|P]; cbn.
    + do 4 (split; [reflexivity|]). split; [|exists [t]; split; [reflexivity|intros x [<-|[]]; reflexivity]].
      destruct Q as [Q1 Q2 Q3 Q4 Q5]. assert (NT : ~ In t ts /\ ~ In t q) by (split; intro; assert (nth t ac false = true) by (apply Q4; auto); congruence).
      constructor.
      * rewrite upd_length. auto.
      * apply NoDup_app_intro; [auto|repeat constructor; intros []|]. intros x Hx [<-|[]]. tauto.
      * intros v Hv. apply in_app_or in Hv. destruct Hv as [Hv|[<-|[]]]; [auto|]. tauto.
      * intros v Hv. rewrite in_app_iff. cbn. destruct (Nat.eq_dec v t) as [->|N].
        -- rewrite nth_upd_eq by lia. tauto.
        -- rewrite nth_upd_neq by auto. rewrite Q4 by auto. intuition congruence.
      * intros v Hv Nv Nh Pv. apply in_or_app. destruct (Nat.eqb_spec hole t) as [->|N]; [|auto].
        destruct (Nat.eq_dec v t) as [->|Nvt]; [right; left; reflexivity|auto].
    + do 4 (split; [reflexivity|]). split; [|exists []; split; [rewrite app_nil_r; reflexivity|intros ? []]].
      destruct Q as [Q1 Q2 Q3 Q4 Q5]. constructor; auto. intros v Hv Nv Nh Pv. destruct (Nat.eqb_spec hole t) as [->|N]; [|auto].
      destruct (Nat.eq_dec v t) as [->|Nvt]; [lia|auto].
Qed.

Section Levels.
Context (R : list (list half)).
Let n := length R.

(** * Levels *)
Lemma at_level_upd ds v d l : length ds = n -> v < n ->
  at_level n (upd ds v d) l = (at_level n ds l + ((if Nat.eqb d l then 1 else 0) - (if Nat.eqb (nth v ds 0%nat) l then 1 else 0)))%Z.
Proof.
  intros Hd Hv. unfold at_level. apply zsum_upd1 with (a := v); auto.
  - intros i Hi Ni. rewrite nth_upd_neq by auto. reflexivity.
  - rewrite nth_upd_eq by lia. destruct (d =? l), (nth v ds 0 =? l); lia.
Qed.

Lemma bump_nth ct i x j : nth j (bump ct i x) 0%Z = (nth j ct 0 + (if Nat.eqb j i && Nat.ltb i (length ct) then x else 0))%Z.
Proof. unfold bump. rewrite nth_upd. destruct (Nat.eqb_spec j i) as [->|]; cbn [andb]; [destruct (i <? length ct)|]; lia. Qed.
Lemma bump_length ct i x : length (bump ct i x) = length ct.
Proof. apply upd_length. Qed.

Lemma cnt_upd ds ct v d : length ds = n -> v < n -> length ct = 2 * n ->
  (forall l, 1 <= l < n -> (at_level n ds l <= nth l ct 0)%Z) ->
  forall l, 1 <= l < n -> (at_level n (upd ds v d) l <= nth l (bump (bump ct (nth v ds 0%nat) (-1)) d 1) 0)%Z.
Proof.
  intros Hd Hv Hc H l Hl. rewrite at_level_upd by auto. rewrite !bump_nth, bump_length. pose proof (H l Hl).
  destruct (Nat.eqb_spec d l) as [->|N1].
  - rewrite Nat.eqb_refl. destruct (Nat.ltb_spec l (length ct)); [|lia]. cbn [andb].
    rewrite (Nat.eqb_sym l). destruct (nth v ds 0 =? l), (nth v ds 0 <? length ct); cbn [andb]; lia.
  - destruct (Nat.eqb_spec l d); [congruence|]. rewrite (Nat.eqb_sym l).
    destruct (nth v ds 0 =? l), (nth v ds 0 <? length ct); cbn [andb]; lia.
Qed.

Lemma empty_level ds a (x y : nat) : x < n -> y < n -> x <> y ->
  (forall l, a <= l < a + (n - 1) -> nth x ds 0 <> l /\ nth y ds 0 <> l) ->
  exists g, a <= g < a + (n - 1) /\ forall u, u < n -> nth u ds 0 <> g.
Proof.
  intros Hx Hy Nxy H.
  destruct (forallb (fun l => existsb (fun u => nth u ds 0 =? l) (seq 0 n)) (seq a (n - 1))) eqn:B.
  - exfalso. rewrite forallb_forall in B.
    set (nodes := remove Nat.eq_dec x (remove Nat.eq_dec y (seq 0 n))).
    assert (L1 : length (remove Nat.eq_dec y (seq 0 n)) < n) by (rewrite <- (seq_length n 0) at 2; apply remove_length_lt; apply in_seq; lia).
    assert (L2 : length nodes < length (remove Nat.eq_dec y (seq 0 n))).
    { apply remove_length_lt. apply in_in_remove; [auto|]. apply in_seq. lia. }
    assert (I : incl (seq a (n - 1)) (map (fun u => nth u ds 0) nodes)).
    { intros l Hl. specialize (B l Hl). apply existsb_exists in B. destruct B as (u & Hu & E). apply Nat.eqb_eq in E.
      apply in_seq in Hl. destruct (H l Hl) as [H1 H2]. apply in_map_iff. exists u. split; [auto|].
      apply in_in_remove; [congruence|]. apply in_in_remove; [congruence|auto]. }
    apply NoDup_incl_length in I; [|apply seq_NoDup]. rewrite seq_length, map_length in I. lia.
  - apply not_true_iff_false in B. rewrite forallb_forall in B.
    assert (E : existsb (fun l => negb (existsb (fun u => nth u ds 0 =? l) (seq 0 n))) (seq a (n - 1)) = true).
    { destruct (existsb _ _) eqn:X; [reflexivity|]. exfalso. apply B. intros l Hl.
      destruct (existsb (fun u => nth u ds 0 =? l) (seq 0 n)) eqn:Y; [reflexivity|]. exfalso.
      assert (existsb (fun l => negb (existsb (fun u => nth u ds 0 =? l) (seq 0 n))) (seq a (n - 1)) = true); [|congruence].
      apply existsb_exists. exists l. rewrite Y. auto. }
    apply existsb_exists in E. destruct E as (g & Hg & E). exists g. apply in_seq in Hg. split; [auto|]. intros u Hu C.
    apply negb_true_iff in E. assert (existsb (fun u => nth u ds 0 =? g) (seq 0 n) = true); [|congruence].
    apply existsb_exists. exists u. split; [apply in_seq; lia|]. apply Nat.eqb_eq. auto.
Qed.

(** * relabel *)
Lemma low_dist_spec s v :
  low_dist R s v <= 2 * n /\
  (forall e t w r, slot R v e = Some (t, w, r) -> (flo s v e <> Z.of_N w)%Z -> low_dist R s v <= S (dist s t)) /\
  (forall b, b <= 2 * n -> (forall e t w r, slot R v e = Some (t, w, r) -> (flo s v e <> Z.of_N w)%Z -> b <= S (dist s t)) -> b <= low_dist R s v).
Proof.
  unfold low_dist.
  set (f := fun d e => if (resid R (p_fl s) v e =? 0)%Z then d else match slot R v e with Some (t, _, _) => Nat.min d (S (dist s t)) | None => d end).
  fold (rl R v). assert (G : forall k, k <= rl R v -> fold_left f (seq 0 k) (2 * length R) <= 2 * n /\
    (forall e t w r, e < k -> slot R v e = Some (t, w, r) -> (flo s v e <> Z.of_N w)%Z -> fold_left f (seq 0 k) (2 * length R) <= S (dist s t)) /\
    (forall b, b <= 2 * n -> (forall e t w r, slot R v e = Some (t, w, r) -> (flo s v e <> Z.of_N w)%Z -> b <= S (dist s t)) -> b <= fold_left f (seq 0 k) (2 * length R))).
  { induction k as [|k IH]; intro Hk.
    - cbn [seq fold_left]. split; [unfold n; lia|]. split; [intros; lia|auto].
    - rewrite seq_S, fold_left_app. cbn [fold_left plus]. destruct (IH ltac:(lia)) as (A & B & C). unfold f at 1 3 5.
      destruct (slot_some R v k ltac:(lia)) as (t & w & r & S). unfold resid. rewrite S.
      destruct (Z.eqb_spec (Z.of_N w - flo s v k) 0%Z) as [Z0|Z0].
      + split; [auto|]. split; [|auto]. intros e t' w' r' He S' N'. destruct (Nat.eq_dec e k) as [->|]; [|eapply B; eauto; lia].
        rewrite S in S'. injection S' as <- <- <-. lia.
      + split; [lia|]. split.
        * intros e t' w' r' He S' N'. destruct (Nat.eq_dec e k) as [->|]; [rewrite S in S'; injection S' as <- <- <-; lia|].
          pose proof (B e t' w' r' ltac:(lia) S' N'). lia.
        * intros b Hb Hb2. pose proof (C b Hb Hb2). pose proof (Hb2 k t w r S ltac:(lia)). lia. }
  destruct (G (rl R v) ltac:(lia)) as (A & B & C). split; [auto|]. split; [|auto].
  intros e t w r S. apply (B e t w r); auto. apply slot_lt in S. tauto.
Qed.
End Levels.

Section PR.
Context (R : list (list half)) (ts : list nat) (src : nat) (V : valid_rows R).
Let n := length R.
Context (Hts : forall t, In t ts -> t < n) (Hsrc : In src ts).

(** what a push from v does *)
Record pushed (K : Z) (v : nat) (s s' : prs) : Prop := {
  pu_ds : p_ds s' = p_ds s;
  pu_ct : p_ct s' = p_ct s;
  pu_f : finv R src K (p_fl s') (p_ex s');
  pu_lab : labv R (p_fl s) (p_ds s) -> labv R (p_fl s') (p_ds s');
  pu_q : qinv n ts (p_ex s') (p_ac s') (p_q s') v;
  pu_new : exists new, p_q s' = p_q s ++ new /\ forall x, In x new -> dist s x < dist s v }.

Lemma pushed_refl K v s : finv R src K (p_fl s) (p_ex s) -> qinv n ts (p_ex s) (p_ac s) (p_q s) v -> pushed K v s s.
Proof. intros. constructor; auto. exists []. rewrite app_nil_r. split; [reflexivity|intros ? []]. Qed.
Lemma pushed_trans K v s1 s2 s3 : pushed K v s1 s2 -> pushed K v s2 s3 -> pushed K v s1 s3.
Proof.
  intros [A1 A2 _ A4 _ (n1 & A6 & A7)] [B1 B2 B3 B4 B5 (n2 & B6 & B7)]. constructor; auto; try congruence.
  exists (n1 ++ n2). split; [rewrite B6, A6, app_assoc; reflexivity|]. intros x Hx. apply in_app_or in Hx. destruct Hx as [Hx|Hx]; [auto|].
  rewrite <- A1. apply B7. auto.
Qed.

Lemma push_edge_ok K v e t w r s : finv R src K (p_fl s) (p_ex s) -> qinv n ts (p_ex s) (p_ac s) (p_q s) v ->
  slot R v e = Some (t, w, r) ->
  let s' := push_edge R v e (dist s v) s in
  pushed K v s s' /\ ((0 < exc s' v)%Z -> (flo s' v e < Z.of_N w)%Z -> dist s v <= dist s t) /\
  (forall i, i <> e -> flo s' v i = flo s v i) /\ (exc s' v <= exc s v)%Z /\
  (dist s t < dist s v -> let am := Z.min (Z.of_N w - flo s v e) (exc s v) in exc s' v = (exc s v - am)%Z /\ flo s' v e = (flo s v e + am)%Z).
Proof.
  intros F Q S s'. destruct (V v e t w r S) as [Ht [Nt S']]. change (slot R t r = Some (v, w, e)) in S'. destruct (slot_lt _ _ _ _ S) as [Hv He].
  unfold s', push_edge. rewrite S. destruct (Nat.leb_spec (dist s v) (dist s t)) as [D|D].
  { split; [apply pushed_refl; auto|]. split; [auto|]. split; [auto|]. split; [lia|]. intros. lia. }
  set (am := Z.min (Z.of_N w - flo s v e) (exc s v)).
  pose proof (f_cap _ _ _ _ _ F v e t w r S). pose proof (f_pos _ _ _ _ _ F v Hv).
  destruct (Z.eqb_spec am 0%Z) as [A|A].
  { split; [apply pushed_refl; auto|]. split; [lia|]. split; [auto|]. split; [lia|]. intros _. cbv zeta. fold am. lia. }
  assert (P : (0 < am)%Z) by lia.
  assert (F' := finv_push R src K (p_fl s) (p_ex s) v e t w r am V F S ltac:(lia) ltac:(lia)). cbv zeta in F'.
  set (fl' := add_flow _ _ _ _) in *. set (ex' := upd (upd _ _ _) _ _) in *.
  pose proof (f_len _ _ _ _ _ F) as FL. pose proof (f_row _ _ _ _ _ F) as FR. pose proof (f_elen _ _ _ _ _ F) as EL.
  destruct (slot_lt _ _ _ _ S') as [_ Hr].
  assert (AT : forall a b, eflow fl' a b =
     (flo s a b + (if Nat.eqb a v && Nat.eqb b e then am else 0) + (if Nat.eqb a t && Nat.eqb b r then - am else 0))%Z).
  { intros a b. unfold fl'. rewrite add_flow_at; [rewrite add_flow_at; [reflexivity|lia|rewrite FR; lia]|rewrite add_flow_length; lia|rewrite add_flow_row, FR; lia]. }
  assert (EV : nth v ex' 0%Z = (exc s v - am)%Z).
  { unfold ex'. rewrite nth_upd_neq by auto. rewrite nth_upd_eq by lia. reflexivity. }
  assert (L' : labv R (p_fl s) (p_ds s) -> labv R fl' (p_ds s)).
  { intros L a b t' w' r' S2 C. rewrite AT in C. destruct (Nat.eqb_spec a t) as [->|Na]; [destruct (Nat.eqb_spec b r) as [->|Nb]|].
    - rewrite S' in S2. injection S2 as <- <- <-. lia.
    - apply (L t b t' w' r' S2). destruct (Nat.eqb_spec t v); [congruence|]. cbn [andb] in C. lia.
    - cbn [andb] in C. apply (L a b t' w' r' S2). destruct (Nat.eqb a v && Nat.eqb b e); lia. }
  assert (Q0 : qinv n ts ex' (p_ac s) (p_q s) v \/ ~ In t ts /\ nth t (p_ac s) false = false /\ (0 < nth t ex' 0)%Z).
  { assert (ET : (0 < nth t ex' 0)%Z).
    { unfold ex'. rewrite nth_upd_eq by (rewrite upd_length; lia). rewrite nth_upd_neq by auto. pose proof (f_pos _ _ _ _ _ F t Ht). lia. }
    destruct (nth t (p_ac s) false) eqn:B.
    - left. destruct Q as [Q1 Q2 Q3 Q4 Q5]. constructor; auto. intros x Hx Nx Nh Px.
      destruct (Nat.eq_dec x t) as [->|Nxt]; [apply Q4 in B; tauto|]. apply Q5; auto. unfold ex' in Px. rewrite !nth_upd_neq in Px by auto. auto.
    - right. split; [|auto]. intro X. assert (nth t (p_ac s) false = true) by (apply (q_ac _ _ _ _ _ _ Q); auto). congruence. }
  assert (PU : pushed K v s (enqueue t (mk_prs fl' ex' (p_ds s) (p_ac s) (p_ct s) (p_q s))) /\
     p_fl (enqueue t (mk_prs fl' ex' (p_ds s) (p_ac s) (p_ct s) (p_q s))) = fl' /\ p_ex (enqueue t (mk_prs fl' ex' (p_ds s) (p_ac s) (p_ct s) (p_q s))) = ex').
  { destruct Q0 as [Q0|[NT [B PT]]].
    - destruct (enqueue_q n ts ex' (p_ac s) (p_q s) v fl' (p_ds s) (p_ct s) t Q0 Ht) as (E1 & E2 & E3 & E4 & E5 & new & E6 & E7). cbv zeta in *.
      split; [|auto]. constructor; rewrite ?E1, ?E2, ?E3; auto.
      + rewrite (proj2 (Nat.eqb_neq v t)) in E5 by auto. exact E5.
      + exists new. split; [auto|]. intros x Hx. rewrite (E7 x Hx). auto.
    - unfold enqueue. cbn [p_ac p_ex p_fl p_ds p_ct p_q]. rewrite B. destruct (Z.ltb_spec 0%Z (nth t ex' 0%Z)); [|lia]. cbn [p_fl p_ex].
      split; [|auto]. constructor; cbn [p_ac p_ex p_fl p_ds p_ct p_q]; auto.
      + destruct Q as [Q1 Q2 Q3 Q4 Q5]. assert (NQ : ~ In t (p_q s)) by (intro; assert (nth t (p_ac s) false = true) by (apply Q4; auto); congruence). constructor.
        * rewrite upd_length. auto.
        * apply NoDup_app_intro; [auto|repeat constructor; intros []|]. intros x Hx [<-|[]]. tauto.
        * intros x Hx. apply in_app_or in Hx. destruct Hx as [Hx|[<-|[]]]; [auto|]. tauto.
        * intros x Hx. rewrite in_app_iff. cbn. destruct (Nat.eq_dec x t) as [->|N].
          -- rewrite nth_upd_eq by lia. tauto.
          -- rewrite nth_upd_neq by auto. rewrite Q4 by auto. intuition congruence.
        * intros x Hx Nx Nh Px. apply in_or_app. destruct (Nat.eq_dec x t) as [->|Nxt]; [right; left; reflexivity|]. left. apply Q5; auto.
          unfold ex' in Px. rewrite !nth_upd_neq in Px by auto. auto.
      + exists [t]. split; [reflexivity|]. intros x [<-|[]]. auto. }
  destruct PU as (PU & E1 & E2). cbv zeta. fold fl' ex'. split; [auto|]. rewrite E1, E2, EV. split; [|split; [|split]].
  - intros X Y. rewrite AT, !Nat.eqb_refl in Y. destruct (Nat.eqb_spec v t); [congruence|]. cbn [andb] in Y. lia.
  - intros i Ni. rewrite AT. destruct (Nat.eqb_spec i e); [contradiction|]. destruct (Nat.eqb_spec v t); [congruence|]. rewrite andb_false_r. cbn [andb]. lia.
  - lia.
  - intros _. cbv zeta. split; [reflexivity|]. rewrite AT, !Nat.eqb_refl. destruct (Nat.eqb_spec v t); [congruence|]. cbn [andb]. lia.
Qed.

Lemma push_rounds_ok K v s k : finv R src K (p_fl s) (p_ex s) -> qinv n ts (p_ex s) (p_ac s) (p_q s) v ->
  k <= rl R v -> let s' := push_rounds R v k s in
  pushed K v s s' /\
  (forall e t w r, e < k -> slot R v e = Some (t, w, r) -> (0 < exc s' v)%Z -> (flo s' v e < Z.of_N w)%Z -> dist s v <= dist s t) /\
  (exc s' v <= exc s v)%Z.
Proof.
  intros F Q Hk. unfold push_rounds. cbv zeta. induction k as [|k IH].
  { cbn. split; [apply pushed_refl; auto|]. split; [intros; lia|lia]. }
  rewrite seq_S, fold_left_app. cbn [fold_left plus]. destruct (IH ltac:(lia)) as (PU & IH2 & IH3).
  set (s1 := fold_left (push_round R v (dist s v)) (seq 0 k) s) in *. clearbody s1. unfold push_round.
  destruct (Z.eqb_spec (exc s1 v) 0%Z) as [Z0|Z0].
  { split; [auto|]. split; [|auto]. intros e t w r He S P. lia. }
  destruct (slot_some R v k ltac:(lia)) as (t & w & r & S).
  assert (D1 : dist s v = dist s1 v) by (rewrite (pu_ds _ _ _ _ PU); reflexivity).
  destruct (push_edge_ok K v k t w r s1 (pu_f _ _ _ _ PU) (pu_q _ _ _ _ PU) S) as (PU2 & A & B & C & _).
  rewrite D1. cbv zeta in *. set (s2 := push_edge R v k (dist s1 v) s1) in *. split; [eapply pushed_trans; eauto|]. split; [|lia].
  intros e t' w' r' He S2 P Res. destruct (Nat.eq_dec e k) as [->|Ne].
  - rewrite S in S2. injection S2 as <- <- <-. rewrite (pu_ds _ _ _ _ PU) in A at 1 2. rewrite (pu_ds _ _ _ _ PU). auto.
  - rewrite <- D1. apply (IH2 e t' w' r'); auto; [lia|lia|]. rewrite B in Res by auto. auto.
Qed.

Record inv (K : Z) (s : prs) (hole : nat) : Prop := {
  i_f : finv R src K (p_fl s) (p_ex s);
  i_lab : labv R (p_fl s) (p_ds s);
  i_q : qinv n ts (p_ex s) (p_ac s) (p_q s) hole;
  i_l : linv n ts src (p_ds s) (p_ct s) }.

(** above an empty level every edge leaving is saturated *)
Lemma gap_saturated K fl ex ds g : finv R src K fl ex -> labv R fl ds -> (forall u, u < n -> nth u ds 0 <> g) ->
  forall u v, u < n -> v < n -> (g <? nth u ds 0) = true -> (g <? nth v ds 0) = false ->
  forall e w r, slot R u e = Some (v, w, r) -> eflow fl u e = Z.of_N w.
Proof.
  intros F L E u v Hu Hv Su Sv e w r S. apply Nat.ltb_lt in Su. apply Nat.ltb_ge in Sv.
  pose proof (f_cap _ _ _ _ _ F u e v w r S). destruct (Z.eq_dec (eflow fl u e) (Z.of_N w)) as [|N]; [auto|].
  pose proof (L u e v w r S ltac:(lia)). specialize (E v Hv). lia.
Qed.

(** a vertex with excess is below level 2n *)
Lemma label_bound K fl ex ds v : finv R src K fl ex -> labv R fl ds -> nth src ds 0 = n -> v < n -> v <> src -> (0 < nth v ex 0)%Z ->
  nth v ds 0 < 2 * n.
Proof.
  intros F L Ds Hv Nv P. destruct (Nat.lt_ge_cases (nth v ds 0) (2 * n)) as [|C]; [auto|exfalso].
  assert (Hs : src < n) by auto.
  destruct (empty_level R ds (S n) src v Hs Hv ltac:(auto)) as (g & Hg & Eg).
  { intros l Hl. lia. }
  set (T := fun u => g <? nth u ds 0).
  pose proof (excess_sum R src K fl ex T F Hs) as E. fold n in E.
  assert (Tsrc : T src = false) by (apply Nat.ltb_ge; lia). rewrite Tsrc in E.
  rewrite (out_flow_eq R fl T) in E by (apply (gap_saturated K fl ex ds g); auto).
  assert (0 <= zsum n (fun u => if T u then nth u ex 0%Z else 0%Z))%Z as E1.
  { apply zsum_nonneg. intros i Hi. destruct (T i); [apply (f_pos _ _ _ _ _ F i Hi)|lia]. }
  assert (Z0 : zsum n (fun u => if T u then nth u ex 0%Z else 0%Z) = 0%Z) by lia.
  assert (X : (if T v then nth v ex 0%Z else 0%Z) = 0%Z).
  { apply (zsum_pos n (fun u => if T u then nth u ex 0%Z else 0%Z)); auto. intros i Hi. destruct (T i); [apply (f_pos _ _ _ _ _ F i Hi)|lia]. }
  assert (T v = true) as Tv by (apply Nat.ltb_lt; lia). rewrite Tv in X. lia.
Qed.

End PR.
