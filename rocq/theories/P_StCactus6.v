(* P_StCactus6.v - proofs about findSTCactus, part 6: the components leave the queue along the chain, up to a reversed end. *)
From Verif Require Import SpecCut SpecDyn SpecPQ SpecMutable M_Mutable P_Mutable P_Cut M_BucketPQ P_BucketPQ P_LocalSearch2 P_AllMincuts M_StCactus P_Crossing P_StCactus P_StCactus2 P_StCactus3 P_StCactus4 P_StCactus5.

(** components 0..n-1 such that the first i+1 of them are a minimum cut for each i; the two ends are joined by an edge, or no
    minimum cut has them on one side *)
Record line (n : nat) (W : wfun) (c : N) : Prop := {
  ln_n : 2 <= n; ln_sym : symm n W; ln_low : atleast c n W; ln_pos : (0 < c)%N;
  ln_pre : forall i, i < n - 1 -> cutw n W (pre i) = c;
  ln_end : (0 < W 0%nat (n - 1)%nat)%N \/ forall S, proper n S -> cutw n W S = c -> S 0 <> S (n - 1) }.

Lemma chained_ext n W W' c : (forall a b, a < n -> b < n -> W a b = W' a b) -> chained n W c -> chained n W' c.
Proof.
  intros E [A1 A2 A3 A4 A5 A6]. assert (C : forall S, cutw n W' S = cutw n W S).
  { intro S. unfold cutw. apply bsum_ext. intros u Hu. apply bsum_ext. intros v Hv. rewrite E by auto. reflexivity. }
  constructor; auto.
  - intros u v Hu Hv. rewrite <- !E by auto. apply A2; auto.
  - intros f Pf. rewrite C. auto.
  - intros i Hi. rewrite C. auto.
  - intros S ES. rewrite C in ES. auto.
Qed.

Lemma line_chained n W c : line n W c -> chained n W c.
Proof.
  intros [A1 A2 A3 A4 A5 A6]. constructor; auto. intros S ES S0 Sn.
  assert (Dn : forall a b, a < b -> b < n -> S b = true -> S a = true).
  { intros a b Hab Hb Sb. destruct (S a) eqn:Sa; [auto|exfalso]. assert (Hbn : b < n - 1) by (destruct (Nat.eq_dec b (n - 1)); [congruence|lia]).
    assert (Sq : square n W c S (pre a)).
    { apply (crossing_square n W c S (pre a) 0 b a (n - 1)); auto; try lia; try (apply A5; lia); unfold pre; [apply Nat.leb_gt|apply Nat.leb_le|apply Nat.leb_gt]; lia. }
    destruct A6 as [E|E].
    - pose proof (sq_d1 _ _ _ _ _ Sq) as D. assert (B : (W 0%nat (n - 1)%nat <= btw n W (c11 S (pre a)) (c00 S (pre a)))%N).
      { apply btw_one; try lia; unfold c11, c00, pre; [rewrite S0; reflexivity|]. rewrite Sn. destruct (Nat.leb_spec (n - 1) a); [lia|reflexivity]. }
      rewrite D in B. clear - B E. lia.
    - apply (E (c10 S (pre a))).
      + apply (proper_at n _ b 0); try lia; unfold c10, pre; [rewrite Sb; destruct (Nat.leb_spec b a); [lia|reflexivity]|apply andb_false_r].
      + apply (sq_10 _ _ _ _ _ Sq).
      + unfold c10. rewrite Sn. cbn. apply andb_false_r. }
  destruct (greatest n S 0 ltac:(lia) S0) as (b & Hb & Sb & Mb). exists b. split; [destruct (Nat.eq_dec b (n - 1)); [congruence|lia]|].
  intros x Hx. unfold pre. destruct (Nat.leb_spec x b).
  - destruct (Nat.eq_dec x b) as [->|]; [auto|]. apply (Dn x b); auto; lia.
  - apply Mb. lia.
Qed.

Section Order.
Context (n : nat) (W : wfun) (c : N) (Hc : (c < 4294967296)%N) (rows : list (list half)) (Ln : line n W c).
Context (Hrows : forall x, x < n -> pairs_of (nth x rows []) = map (fun b => (b, W x b)) (filter (fun b => negb (b =? x)) (seq 0 n))).

Lemma qstate_ext q T T' : (forall u, u < n -> T u = T' u) -> qstate n W c q T -> qstate n W c q T'.
Proof.
  intros E [[Wf Ab] Tp]. assert (K : forall u, key n W T u = key n W T' u) by (intro u; unfold key; apply btw_ext; auto). split.
  - split; [exact Wf|]. intro u. rewrite Ab. destruct (Nat.ltb_spec u n); [|reflexivity]. rewrite E, K by auto. reflexivity.
  - intros z Hz Tz Mz. unfold ontop. rewrite <- K. apply Tp; auto; [rewrite E; auto|]. intros u Hu Tu. apply Mz; auto. rewrite <- E; auto.
Qed.

(** T and T+x are minimum cuts: x is connected to T at least as strongly as any other vertex *)
Lemma best_key T x u : cutw n W T = c -> cutw n W (plus1 T x) = c -> x < n -> u < n -> u <> x -> T x = false -> T u = false ->
  (key n W T u <= key n W T x)%N /\ (key n W T u = key n W T x -> cutw n W (Nat.eqb x) = c /\ (2 * key n W T u = c)%N).
Proof.
  destruct Ln as [A1 A2 A3 A4 A5 A6]. intros E1 E2 Hx Hu Ne Tx Tu. pose proof (half_key n W c T x A2 Hx Tx E1 E2) as Hk. pose proof (two_keys n W T u x Hu Hx Ne Tu Tx) as Tk. pose proof (A3 _ (proper_one n x Hx A1)) as Lo.
  unfold key. clear - E1 Hk Tk Lo. lia.
Qed.

Lemma after_bound T x : cutw n W (plus1 T x) = c -> forall u, u < n -> plus1 T x u = false -> (key n W (plus1 T x) u <= c)%N.
Proof. intros E u Hu Tu. rewrite <- E. apply key_le; auto. Qed.

Definition beyond (k j u : nat) : bool := negb (itv (k + 1) j u).
Lemma phase2 k : k < n - 1 -> (forall j, k + 1 <= j -> j < n - 1 -> cutw n W (itv (k + 1) j) = c) ->
  forall m q, m <= n - 1 - k -> qstate n W c q (beyond k (k + m)) -> sc_take m rows c q = Some (rev (seq (k + 1) m)).
Proof.
  intros Hk Ti. pose proof (ln_sym _ _ _ Ln) as Sy. induction m as [|m IH]; intros q Hm Q; [reflexivity|]. cbn [sc_take].
  set (x := k + S m) in *. set (T := beyond k x) in *.
  assert (PT : forall u, u < n -> plus1 T x u = beyond k (k + m) u).
  { intros u Hu. unfold plus1, T, beyond, itv, x. destruct (Nat.leb_spec (k + 1) u), (Nat.leb_spec u (k + S m)), (Nat.leb_spec u (k + m)), (Nat.eqb_spec u (k + S m)); cbn; auto; lia. }
  assert (Tx : T x = false). { unfold T, beyond, itv, x. destruct (Nat.leb_spec (k + 1) (k + S m)), (Nat.leb_spec (k + S m) (k + S m)); auto; lia. }
  assert (In_T : forall u, T u = false -> k + 1 <= u <= x). { intros u Tu. unfold T, beyond, itv in Tu. destruct (Nat.leb_spec (k + 1) u), (Nat.leb_spec u x); cbn in Tu; try discriminate Tu; auto. }
  assert (CT : forall i, k + 1 <= i -> i <= n - 1 -> cutw n W (beyond k i) = c).
  { intros i H1 H2. unfold beyond. destruct (Nat.eq_dec i (n - 1)) as [->|].
    - rewrite <- (ln_pre _ _ _ Ln k) by lia. apply cutw_ext. intros u Hu. unfold itv, pre. destruct (Nat.leb_spec (k + 1) u), (Nat.leb_spec u (n - 1)), (Nat.leb_spec u k); cbn; auto; lia.
    - rewrite cutw_compl by auto. apply Ti; lia. }
  destruct (take_step n W c Hc rows Hrows q T x Q) as (q1 & q2 & E1 & E2 & Q2).
  - split; [unfold x; lia|]. split; [exact Tx|]. right. split; [intros u Hu Tu; apply In_T in Tu; lia|]. intros u Hu Tu. destruct (Nat.eq_dec u x) as [->|Ne]; [apply N.le_refl|].
    pose proof (In_T u Tu) as Iu. assert (1 <= m) by (unfold x in *; lia). apply best_key; auto; try (unfold x; lia).
    + apply CT; unfold x; lia.
    + rewrite (cutw_ext n W _ _ PT). apply CT; lia.
  - destruct (Nat.eq_dec m 0) as [->|].
    + intros u Hu Tu. rewrite PT in Tu by auto. exfalso. unfold beyond, itv in Tu. destruct (Nat.leb_spec (k + 1) u), (Nat.leb_spec u (k + 0)); cbn in Tu; try discriminate Tu; lia.
    + apply after_bound. rewrite (cutw_ext n W _ _ PT). apply CT; lia.
  - rewrite E1, E2. rewrite (IH q2) by (try lia; apply (qstate_ext q2 (plus1 T x)); auto). cbn [option_map]. f_equal. rewrite seq_S, rev_app_distr. cbn. f_equal. unfold x. lia.
Qed.

Definition tie (k : nat) : Prop := cutw n W (itv (k + 1) (n - 2)) = c.
Lemma tie_from k : k + 1 <= n - 2 -> (2 * key n W (pre k) (n - 1) = c)%N -> tie k.
Proof.
  intros Hk E. destruct Ln as [A1 A2 A3 A4 A5 A6]. unfold key in E. set (Z := Nat.eqb (n - 1)) in *. set (Y := itv (k + 1) (n - 2)). set (X := pre k) in *.
  assert (C1 : cutw n W X = (btw n W X Y + btw n W X Z)%N).
  { rewrite cutw_btw. apply btw_r. intros u Hu. unfold X, Y, Z, pre, itv. destruct (Nat.leb_spec u k), (Nat.leb_spec (k + 1) u), (Nat.leb_spec u (n - 2)), (Nat.eqb_spec (n - 1) u); cbn; lia. }
  assert (C2 : cutw n W (pre (n - 2)) = (btw n W X Z + btw n W Y Z)%N).
  { rewrite cutw_btw. rewrite (btw_ext n W (pre (n - 2)) (pre (n - 2)) _ Z); [|auto|intros u Hu; unfold Z, pre; destruct (Nat.leb_spec u (n - 2)), (Nat.eqb_spec (n - 1) u); cbn; auto; lia].
    apply btw_l. intros u Hu. unfold X, Y, pre, itv. destruct (Nat.leb_spec u k), (Nat.leb_spec (k + 1) u), (Nat.leb_spec u (n - 2)); cbn; lia. }
  assert (C3 : cutw n W Y = (btw n W Y X + btw n W Y Z)%N).
  { rewrite cutw_btw. apply btw_r. intros u Hu. unfold X, Y, Z, pre, itv. destruct (Nat.leb_spec u k), (Nat.leb_spec (k + 1) u), (Nat.leb_spec u (n - 2)), (Nat.eqb_spec (n - 1) u); cbn; lia. }
  rewrite (btw_sym n W Y X A2) in C3. assert (D1 : cutw n W X = c) by (apply A5; lia). assert (D2 : cutw n W (pre (n - 2)) = c) by (apply A5; lia). unfold tie. fold Y. clear - C1 C2 C3 D1 D2 E. lia.
Qed.

Lemma phase1 : forall m k q, k + m = n - 1 -> qstate n W c q (pre k) ->
  exists l, sc_take m rows c q = Some l /\
    ((l = seq (k + 1) m /\ forall a, k <= a -> a < n - 2 -> ~ tie a) \/
     (exists k', k <= k' /\ k' < n - 2 /\ tie k' /\ (forall a, k <= a -> a < k' -> ~ tie a) /\ l = seq (k + 1) (k' - k) ++ rev (seq (k' + 1) (n - 1 - k')))).
Proof.
  pose proof (line_chained _ _ _ Ln) as Cd. induction m as [|m IH]; intros k q Em Q.
  - exists []. split; [reflexivity|]. left. split; [reflexivity|]. intros; lia.
  - assert (Bk : forall u, u < n -> pre k u = beyond k (k + S m) u). { intros u Hu. unfold pre, beyond, itv. destruct (Nat.leb_spec u k), (Nat.leb_spec (k + 1) u), (Nat.leb_spec u (k + S m)); cbn; auto; lia. }
    destruct (Nat.eq_dec m 0) as [->|Nm].
    { exists (rev (seq (k + 1) 1)). split; [|left; split; [reflexivity|intros; lia]]. apply phase2; try lia. apply (qstate_ext q (pre k)); auto. }
    destruct (N.eq_dec (cutw n W (itv (k + 1) (n - 2))) c) as [Ti|Ti].
    { exists (rev (seq (k + 1) (S m))). split.
      - apply phase2; try lia. { intros j H1 H2. apply (sub_itv2 n W c Cd (k + 1) (n - 2)); auto; lia. } apply (qstate_ext q (pre k)); auto.
      - right. exists k. split; [lia|]. split; [lia|]. split; [exact Ti|]. split; [intros; lia|]. rewrite Nat.sub_diag. replace (n - 1 - k) with (S m) by lia. reflexivity. }
    set (x := k + 1). assert (PT : forall u, u < n -> plus1 (pre k) x u = pre x u). { intros u Hu. unfold plus1, pre, x. destruct (Nat.leb_spec u k), (Nat.leb_spec u (k + 1)), (Nat.eqb_spec u (k + 1)); cbn; auto; lia. }
    assert (Tx : pre k x = false) by (apply Nat.leb_gt; unfold x; lia). assert (C1 : cutw n W (pre k) = c) by (apply (ln_pre _ _ _ Ln); lia).
    assert (C2 : cutw n W (plus1 (pre k) x) = c) by (rewrite (cutw_ext n W _ _ PT); apply (ln_pre _ _ _ Ln); unfold x; lia).
    cbn [sc_take]. destruct (take_step n W c Hc rows Hrows q (pre k) x Q) as (q1 & q2 & E1 & E2 & Q2).
    + split; [unfold x; lia|]. split; [exact Tx|]. left. intros u Hu Tu Ne. destruct (best_key (pre k) x u C1 C2 ltac:(unfold x; lia) Hu Ne Tx Tu) as [Le Eq].
      destruct (N.eq_dec (key n W (pre k) u) (key n W (pre k) x)) as [E|E]; [|clear - Le E; lia]. exfalso. destruct (Eq E) as [Cx Ck].
      destruct (Nat.eq_dec u (n - 1)) as [->|Nu]; [apply Ti, tie_from; [lia|auto]|].
      destruct (ln_end _ _ _ Ln) as [We|Se].
      * assert (Tn : pre k (n - 1) = false) by (apply Nat.leb_gt; lia).
        pose proof (three_keys n W (pre k) u x (n - 1) Hu ltac:(unfold x; lia) ltac:(lia) Ne Nu ltac:(unfold x; lia) Tu Tx Tn) as T3. fold (key n W (pre k) u) (key n W (pre k) x) (key n W (pre k) (n - 1)) in T3.
        assert (W1 : (W 0%nat (n - 1)%nat <= key n W (pre k) (n - 1))%N) by (apply btw_one; try lia; reflexivity).
        rewrite <- E, C1 in T3. clear - T3 W1 We Ck. lia.
      * apply (Se (Nat.eqb x)); [apply proper_one; unfold x; lia|auto|]. unfold x. destruct (Nat.eqb_spec (k + 1) 0), (Nat.eqb_spec (k + 1) (n - 1)); auto; lia.
    + apply after_bound. exact C2.
    + rewrite E1, E2. destruct (IH x q2) as (l & El & Cl); [unfold x; lia|apply (qstate_ext q2 (plus1 (pre k) x)); auto|].
      rewrite El. cbn [option_map]. exists (x :: l). split; [reflexivity|]. destruct Cl as [[-> Nt]|(k' & K1 & K2 & K3 & K4 & ->)].
      * left. split; [cbn; f_equal; f_equal; unfold x; lia|]. intros a Ha Hb. destruct (Nat.eq_dec a k) as [->|]; [exact Ti|apply Nt; unfold x; lia].
      * right. exists k'. split; [unfold x in *; lia|]. split; [auto|]. split; [auto|]. split.
        -- intros a Ha Hb. destruct (Nat.eq_dec a k) as [->|]; [exact Ti|apply K4; unfold x; lia].
        -- replace (k' - k) with (S (k' - x)) by (unfold x in *; lia). cbn [seq app]. f_equal. f_equal. f_equal. unfold x. lia.
Qed.

(** the first vertex has left the queue *)
Lemma first_state C : m_n C = n -> m_rows C = rows -> exists q0 q1,
  fold_opt (fun q v => if v =? 0 then Some q else bq_insert q v 0) (seq 0 (m_n C)) (bq_init (m_n C) (N.to_nat c + 1)) = Some q0 /\
  fold_opt sc_key0 (nth 0 (m_rows C) []) q0 = Some q1 /\ qstate n W c q1 (pre 0).
Proof.
  intros En Er. pose proof (ln_n _ _ _ Ln) as Nn. rewrite En, Er. fold (span c).
  assert (Ins : forall m, m <= n -> exists q, fold_opt (fun q v => if v =? 0 then Some q else bq_insert q v 0) (seq 0 m) (bq_init n (span c)) = Some q /\ wfb false n (span c) q /\ forall u, babs q u = if (u <? m) && negb (u =? 0) then Some 0%N else None).
  { induction m as [|m IH]; intro Hm.
    - exists (bq_init n (span c)). split; [reflexivity|]. split; [apply wfb_init|]. intro u. apply babs_init.
    - destruct IH as (q & Eq & Wf & Ab); [lia|]. rewrite seq_S, foldo_app, Eq. cbn [fold_opt plus]. destruct (Nat.eqb_spec m 0) as [->|].
      + exists q. split; [reflexivity|]. split; [auto|]. intro u. rewrite Ab. destruct (Nat.ltb_spec u 0), (Nat.ltb_spec u 1), (Nat.eqb_spec u 0); cbn; auto; lia.
      + destruct (bq_insert_ok false n (span c) q m 0 Wf) as (q' & E' & W' & A' & _); [lia| |cbn; lia|].
        * rewrite Ab, Nat.ltb_irrefl. reflexivity.
        * rewrite E'. exists q'. split; [reflexivity|]. split; [auto|]. intro u. rewrite A'. unfold qset. destruct (Nat.eqb_spec u m) as [->|].
          -- destruct (Nat.ltb_spec m (S m)); [|lia]. destruct (Nat.eqb_spec m 0); [lia|]. reflexivity.
          -- rewrite Ab. destruct (Nat.ltb_spec u m), (Nat.ltb_spec u (S m)); auto; lia. }
  destruct (Ins n (le_n n)) as (q0 & E0 & W0 & A0). exists q0.
  assert (Kp : forall u, u < n -> key n W (pre 0) u = W 0 u).
  { intros u Hu. unfold key. rewrite (btw_ext n W (pre 0) (Nat.eqb 0) (Nat.eqb u) (Nat.eqb u)); [apply btw_single; lia| |auto]. intros [|v] _; reflexivity. }
  destruct (keys_row n W c Hc rows Hrows sc_key0 (fun u => negb (u =? 0)) (fun _ => 0%N) 0) with (q := q0) as (q1 & E1 & K1 & T1).
  - lia.
  - reflexivity.
  - intros q h Ih Hh Eh Wh. unfold sc_key0. destruct (Nat.eqb_spec (fst (fst h)) 0) as [Q|Q]; [|reflexivity]. exfalso.
    assert (Ip : In (fst (fst h), snd (fst h)) (pairs_of (nth 0 rows []))) by (unfold pairs_of; apply in_map_iff; eauto). rewrite Hrows in Ip by lia.
    apply in_map_iff in Ip. destruct Ip as (b & E & Ib). injection E as E' _. apply filter_In in Ib. destruct Ib as [_ Ib]. rewrite E', Q in Ib. discriminate Ib.
  - intros u Hu Ru. rewrite N.add_0_l, <- Kp, <- (ln_pre _ _ _ Ln 0) by lia. apply key_le; [auto|]. unfold pre. apply Nat.leb_gt. destruct u; [discriminate Ru|lia].
  - split; [exact W0|exact A0].
  - exists q1. split; [exact E0|]. split; [exact E1|]. split.
    + destruct K1 as [W1 A1]. split; [exact W1|]. intro u. rewrite A1. destruct (Nat.ltb_spec u n); [|reflexivity]. rewrite Kp by auto. unfold pre. destruct u; cbn; reflexivity.
    + intros z Hz Tz Mz. unfold ontop. rewrite Kp by auto. apply T1; auto.
      * destruct z; [discriminate Tz|reflexivity].
      * intros u Hu Ru. apply Mz; auto. unfold pre. destruct u; [discriminate Ru|reflexivity].
Qed.

(** ** the reversed end *)
Definition flip (k a : nat) : nat := if a <=? k then a else n + k - a.
Lemma flip_lt k a : k < n -> a < n -> flip k a < n.
Proof. unfold flip. destruct (Nat.leb_spec a k); lia. Qed.
Lemma flip_flip k a : k < n -> a < n -> flip k (flip k a) = a.
Proof. intros H1 H2. unfold flip. destruct (Nat.leb_spec a k); [|destruct (Nat.leb_spec (n + k - a) k); lia]. destruct (Nat.leb_spec a k); lia. Qed.
Lemma flip_cut k S : k < n -> cutw n (fun a b => W (flip k a) (flip k b)) S = cutw n W (fun u => S (flip k u)).
Proof.
  intro Hk. apply contraction_cut; [intros u Hu; apply flip_lt; auto|]. intros p q Hp Hq Ne.
  assert (E : forall a u, a < n -> u < n -> (flip k u =? a) = (u =? flip k a)).
  { intros a u Ha Hu. destruct (Nat.eqb_spec u (flip k a)) as [->|N2]; [rewrite flip_flip by auto; apply Nat.eqb_refl|]. apply Nat.eqb_neq. intro Q. apply N2. rewrite <- Q. symmetry. apply flip_flip; auto. }
  rewrite <- (bsum_single n (W (flip k p)) (flip k q)) by (apply flip_lt; auto).
  rewrite <- (bsum_single n (fun u => bsum n (fun v => if v =? flip k q then W u v else 0%N)) (flip k p)) by (apply flip_lt; auto).
  apply bsum_ext. intros u Hu. rewrite E by auto. destruct (u =? flip k p); cbn [andb].
  - apply bsum_ext. intros v Hv. rewrite E by auto. reflexivity.
  - symmetry. apply bsum_zero. reflexivity.
Qed.

Lemma flip_chained k : k < n - 2 -> tie k -> (forall a, a < k -> ~ tie a) -> chained n (fun a b => W (flip k a) (flip k b)) c.
Proof.
  intros Hk Ti Nt. pose proof (line_chained _ _ _ Ln) as Cd. assert (Kn : k < n) by lia. destruct Ln as [A1 A2 A3 A4 A5 A6].
  assert (Sub : forall j, k + 1 <= j -> j < n - 1 -> cutw n W (itv (k + 1) j) = c) by (intros j H1 H2; apply (sub_itv2 n W c Cd (k + 1) (n - 2)); auto; lia).
  constructor; auto.
  - intros u v Hu Hv. apply A2; apply flip_lt; auto.
  - intros f [(u & Hu & Fu) (v & Hv & Fv)]. rewrite flip_cut by auto. apply A3. split; [exists (flip k u)|exists (flip k v)]; (split; [apply flip_lt; auto|]); rewrite flip_flip; auto.
  - intros i Hi. rewrite flip_cut by auto. destruct (Nat.le_gt_cases i k).
    + rewrite <- (A5 i) by lia. apply cutw_ext. intros u Hu. unfold pre, flip. destruct (Nat.leb_spec u k); [reflexivity|]. destruct (Nat.leb_spec (n + k - u) i), (Nat.leb_spec u i); auto; lia.
    + rewrite <- (Sub (n + k - i - 1)) by lia. rewrite <- cutw_compl by auto. apply cutw_ext. intros u Hu. unfold pre, flip, itv. destruct (Nat.leb_spec u k), (Nat.leb_spec (k + 1) u), (Nat.leb_spec u (n + k - i - 1)); try lia.
  - intros S ES S0 Sn. rewrite flip_cut in ES by auto. set (S' := fun u => S (flip k u)) in *.
    assert (S0' : S' 0 = true) by (unfold S', flip; cbn; exact S0). assert (Sk' : S' (k + 1) = false). { unfold S', flip. destruct (Nat.leb_spec (k + 1) k); [lia|]. rewrite <- Sn. f_equal. lia. }
    assert (Back : forall x, x < n -> S x = S' (flip k x)) by (intros x Hx; unfold S'; rewrite flip_flip; auto).
    destruct (itv_or_prefix n W c Cd S' (proper_at n S' 0 (k + 1) ltac:(lia) ltac:(lia) S0' Sk') ES S0') as [(i & Hi & Ei)|(a & b & Ha & Hab & Hb & Ei)].
    + assert (i <= k). { rewrite Ei in Sk' by lia. apply Nat.leb_gt in Sk'. lia. }
      exists i. split; [lia|]. intros x Hx. rewrite Back, Ei by (try apply flip_lt; auto). unfold pre, flip. destruct (Nat.leb_spec x k); [reflexivity|]. destruct (Nat.leb_spec (n + k - x) i), (Nat.leb_spec x i); auto; lia.
    + assert (Hk1 : a <= k + 1 <= b). { rewrite Ei in Sk' by lia. unfold itv in Sk'. destruct (Nat.leb_spec a (k + 1)), (Nat.leb_spec (k + 1) b); cbn in Sk'; try discriminate Sk'. lia. }
      assert (Eab : cutw n W (itv a b) = c). { rewrite <- ES, <- (cutw_compl n W S') by auto. apply cutw_ext. intros x Hx. rewrite Ei by auto. rewrite negb_involutive. reflexivity. }
      assert (a = k + 1).
      { destruct (Nat.eq_dec a (k + 1)); [auto|exfalso]. apply (Nt (a - 1) ltac:(lia)). unfold tie. replace (a - 1 + 1) with a by lia.
        destruct (Nat.eq_dec b (n - 2)) as [->|]; [auto|]. apply (join_itv n W c Cd a b (k + 1) (n - 2)); auto; lia. }
      subst a. exists (n + k - b - 1). split; [lia|]. intros x Hx. rewrite Back, Ei by (try apply flip_lt; auto). unfold pre, flip, itv.
      destruct (Nat.leb_spec x k); [destruct (Nat.leb_spec (k + 1) x), (Nat.leb_spec x (n + k - b - 1)); cbn; auto; lia|].
      destruct (Nat.leb_spec (k + 1) (n + k - x)), (Nat.leb_spec (n + k - x) b), (Nat.leb_spec x (n + k - b - 1)); cbn; auto; lia.
Qed.

(** ** the order of the components *)
Lemma nodup_inj {A B} (f : A -> B) l : (forall x y, In x l -> In y l -> f x = f y -> x = y) -> NoDup l -> NoDup (map f l).
Proof.
  induction l as [|x l IH]; intros H ND; cbn; [constructor|]. inversion ND; subst. constructor; [|apply IH; auto; intros; apply H; try right; auto].
  intro Q. apply in_map_iff in Q. destruct Q as (y & E & Iy). apply H in E; [subst; auto|right; auto|left; auto].
Qed.
Lemma complete_of ord : length rows = n -> Permutation ord (seq 0 n) -> complete_rows n (fun a b => W (nth a ord 0) (nth b ord 0)) rows ord.
Proof.
  intros Lr P. assert (Lo : length ord = n) by (rewrite (Permutation_length P), seq_length; auto). assert (ND : NoDup ord) by (apply (Permutation_NoDup (Permutation_sym P)), seq_NoDup).
  assert (In_o : forall b, b < n -> nth b ord 0 < n). { intros b Hb. assert (In (nth b ord 0) (seq 0 n)) by (apply (Permutation_in _ P), nth_In; lia). apply in_seq in H. lia. }
  split; [auto|]. split; [auto|]. split; [auto|]. intros a Ha. rewrite Hrows by auto. apply NoDup_Permutation.
  - apply (NoDup_map_inv fst). rewrite map_map. cbn [fst]. rewrite map_id. apply NoDup_filter, seq_NoDup.
  - apply (NoDup_map_inv fst). rewrite map_map. cbn [fst]. apply nodup_inj; [|apply NoDup_filter, seq_NoDup].
    intros x y Ix Iy E. apply filter_In in Ix, Iy. destruct Ix as [Ix _], Iy as [Iy _]. apply in_seq in Ix, Iy. apply (proj1 (NoDup_nth ord 0) ND); auto; lia.
  - intros [y w]. rewrite !in_map_iff. split.
    + intros (b & E & Ib). injection E as <- <-. apply filter_In in Ib. destruct Ib as [Ib Nb]. apply (Permutation_in _ (Permutation_sym P)) in Ib. destruct (In_nth _ _ 0 Ib) as (i & Hi & <-). exists i. split; [reflexivity|].
      apply filter_In. split; [apply in_seq; lia|]. apply negb_true_iff, Nat.eqb_neq. intros ->. rewrite Nat.eqb_refl in Nb. discriminate Nb.
    + intros (b & E & Ib). injection E as <- <-. apply filter_In in Ib. destruct Ib as [Ib Nb]. apply in_seq in Ib. exists (nth b ord 0). split; [reflexivity|]. apply filter_In. split; [apply in_seq; split; [lia|apply In_o; lia]|].
      apply negb_true_iff, Nat.eqb_neq. intro Q. apply (proj1 (NoDup_nth ord 0) ND) in Q; [|lia|lia]. subst. rewrite Nat.eqb_refl in Nb. discriminate Nb.
Qed.

Lemma nth_flip k a : k < n -> a < n -> nth a (seq 0 (S k) ++ rev (seq (k + 1) (n - 1 - k))) 0 = flip k a.
Proof.
  intros Hk Ha. unfold flip. destruct (Nat.leb_spec a k).
  - rewrite app_nth1 by (rewrite seq_length; lia). rewrite seq_nth by lia. reflexivity.
  - rewrite app_nth2 by (rewrite seq_length; lia). rewrite seq_length. rewrite rev_nth by (rewrite seq_length; lia). rewrite seq_length, seq_nth by lia. lia.
Qed.

Lemma order_ok C : m_n C = n -> m_rows C = rows ->
  exists ord, sc_order C 0 c = Some ord /\ Permutation ord (seq 0 n) /\ chained n (fun a b => W (nth a ord 0) (nth b ord 0)) c.
Proof.
  intros En Er. pose proof (ln_n _ _ _ Ln) as Nn. destruct (first_state C En Er) as (q0 & q1 & E0 & E1 & Q1).
  destruct (phase1 (n - 1) 0 q1 ltac:(lia) Q1) as (l & El & Cl). exists (0 :: l). unfold sc_order. rewrite E0, E1, Er, En, El. split; [reflexivity|].
  destruct Cl as [[-> _]|(k & _ & K2 & K3 & K4 & ->)].
  - assert (Es : 0 :: seq (0 + 1) (n - 1) = seq 0 n). { replace n with (S (n - 1)) at 2 by lia. reflexivity. } rewrite Es. split; [apply Permutation_refl|].
    apply (chained_ext n W); [|apply line_chained, Ln]. intros a b Ha Hb. rewrite !seq_nth by auto. reflexivity.
  - assert (Es : 0 :: seq (0 + 1) (k - 0) ++ rev (seq (k + 1) (n - 1 - k)) = seq 0 (S k) ++ rev (seq (k + 1) (n - 1 - k))) by (rewrite Nat.sub_0_r; reflexivity). rewrite Es. split.
    + transitivity (seq 0 (S k) ++ seq (k + 1) (n - 1 - k)); [apply Permutation_app_head, Permutation_sym, Permutation_rev|]. replace (k + 1) with (0 + S k) by lia. rewrite <- seq_app. replace (S k + (n - 1 - k)) with n by lia. apply Permutation_refl.
    + apply (chained_ext n (fun a b => W (flip k a) (flip k b))).
      * intros a b Ha Hb. rewrite !nth_flip by lia. reflexivity.
      * apply flip_chained; auto. intros a Ha. apply K4; lia.
Qed.
End Order.
