(* P_StCactus4.v - proofs about findSTCactus, part 4: the scan along the order finds the maximal runs. *)
From Coq Require Import ZArith.
From Verif Require Import SpecCut SpecDyn SpecMutable M_Mutable P_Mutable P_Cut P_LocalSearch2 P_AllMincuts M_StCactus P_Crossing P_StCactus P_StCactus2 P_StCactus3.

Definition pairs_of (row : list half) : list (nat * N) := map (fun h => (fst (fst h), snd (fst h))) row.
(** the rows of the contracted graph, read along the order *)
Definition complete_rows (n : nat) (W : wfun) (rows : list (list half)) (ord : list nat) : Prop :=
  length rows = n /\ length ord = n /\ NoDup ord /\
  forall a, a < n -> Permutation (pairs_of (nth (nth a ord 0) rows [])) (map (fun b => (nth b ord 0, W a b)) (filter (fun b => negb (b =? a)) (seq 0 n))).

Fixpoint zsum {A} (f : A -> Z) (l : list A) : Z := match l with [] => 0%Z | x :: l' => (f x + zsum f l')%Z end.
Lemma zsum_perm {A} (f : A -> Z) l l' : Permutation l l' -> zsum f l = zsum f l'.
Proof. induction 1; cbn [zsum] in *; lia. Qed.
Lemma zsum_map {A B} (f : B -> Z) (g : A -> B) l : zsum f (map g l) = zsum (fun x => f (g x)) l.
Proof. induction l; cbn; [auto|]. rewrite IHl. auto. Qed.
Lemma zsum_ext {A} (f g : A -> Z) l : (forall x, In x l -> f x = g x) -> zsum f l = zsum g l.
Proof. induction l; intro H; cbn; [auto|]. rewrite H by (left; auto). rewrite IHl; auto. intros. apply H. right. auto. Qed.
Lemma zsum_filter {A} (f : A -> Z) p l : zsum f (filter p l) = zsum (fun x => if p x then f x else 0%Z) l.
Proof. induction l; cbn; [auto|]. destruct (p a); cbn; rewrite IHl; lia. Qed.
Lemma zsum_bsum n f : zsum (fun x => Z.of_N (f x)) (seq 0 n) = Z.of_N (bsum n f).
Proof.
  induction n as [|n IH]; [reflexivity|]. rewrite seq_S, bsum_S. cbn [plus]. rewrite N2Z.inj_add, <- IH. generalize (seq 0 n). induction l; cbn [zsum app] in *; lia.
Qed.
Lemma zsum_sub {A} (f g : A -> Z) l : zsum (fun x => (f x - g x)%Z) l = (zsum f l - zsum g l)%Z.
Proof. induction l; cbn; [auto|]. rewrite IHl. lia. Qed.

Lemma degree_fold cyc row : forall d, sc_degree cyc d row = (d + zsum (fun e => if existsb (Nat.eqb (fst e)) cyc then - Z.of_N (snd e) else Z.of_N (snd e)) (pairs_of row))%Z.
Proof.
  unfold sc_degree. induction row as [|h row IH]; intro d; [cbn; lia|]. change (pairs_of (h :: row)) with ((fst (fst h), snd (fst h)) :: pairs_of row). cbn [fold_left zsum fst snd]. rewrite IH. destruct (existsb (Nat.eqb (fst (fst h))) cyc); lia.
Qed.

Lemma btw_at n W a Y : a < n -> btw n W (Nat.eqb a) Y = bsum n (fun v => if Y v then W a v else 0%N).
Proof.
  intro Ha. unfold btw. rewrite <- (bsum_single n (fun u => bsum n (fun v => if Y v then W u v else 0%N)) a Ha). apply bsum_ext.
  intros u Hu. rewrite (Nat.eqb_sym u a). destruct (Nat.eqb_spec a u) as [->|]; cbn [andb]; [reflexivity|]. apply bsum_zero. reflexivity.
Qed.

(** adding vertex b to the interval a..b-1 *)
Lemma grow n W a b : symm n W -> a <= b -> b < n ->
  Z.of_N (cutw n W (itv a b)) = (Z.of_N (if Nat.ltb a b then cutw n W (itv a (b - 1)) else 0%N) + Z.of_N (bsum n (fun v => if negb (itv a b v) then W b v else 0%N)) - Z.of_N (bsum n (fun v => if Nat.leb a v && Nat.ltb v b then W b v else 0%N)))%Z.
Proof.
  intros Sy H1 H2. set (X := fun v => (a <=? v) && (v <? b)). set (R := fun v => negb (itv a b v)).
  assert (E1 : cutw n W (itv a b) = (btw n W (Nat.eqb b) R + btw n W X R)%N).
  { rewrite cutw_btw. apply btw_l. intros u Hu. unfold itv, X. destruct (Nat.leb_spec a u), (Nat.leb_spec u b), (Nat.ltb_spec u b), (Nat.eqb_spec b u); cbn; lia. }
  assert (E2 : (if a <? b then cutw n W (itv a (b - 1)) else 0%N) = (btw n W X (Nat.eqb b) + btw n W X R)%N).
  { destruct (Nat.ltb_spec a b).
    - rewrite cutw_btw. rewrite (btw_ext n W (itv a (b - 1)) X _ (fun v => negb (X v))). 2,3: intros u Hu; unfold itv, X; destruct (Nat.leb_spec a u), (Nat.leb_spec u (b - 1)), (Nat.ltb_spec u b); cbn; auto; lia.
      apply btw_r. intros u Hu. unfold itv, X, R, itv. destruct (Nat.leb_spec a u), (Nat.leb_spec u b), (Nat.ltb_spec u b), (Nat.eqb_spec b u); cbn; lia.
    - assert (Z0 : forall Y, btw n W X Y = 0%N). { intro Y. unfold btw. apply bsum_zero. intros u Hu. apply bsum_zero. intros v Hv. unfold X. destruct (Nat.leb_spec a u), (Nat.ltb_spec u b); cbn; auto; lia. }
      rewrite !Z0. reflexivity. }
  rewrite (btw_sym n W X (Nat.eqb b) Sy), (btw_at n W b X H2) in E2. rewrite (btw_at n W b R H2) in E1. unfold X, R in *. lia.
Qed.

Section Scan.
Context (n : nat) (W : wfun) (c : N) (Cd : chained n W c) (rows : list (list half)) (ord : list nat) (CR : complete_rows n W rows ord).

(** curr_cycle after the vertices a..i-1 *)
Definition cyc_of (a i : nat) : list nat := rev (map (fun j => nth j ord 0) (seq a (i - a))).
Lemma cyc_mem a i b : a <= i -> i <= n -> b < n -> existsb (Nat.eqb (nth b ord 0)) (cyc_of a i) = (a <=? b) && (b <? i).
Proof.
  intros H1 H2 H3. destruct CR as (L1 & L2 & ND & _). apply eq_true_iff_eq. rewrite existsb_exists, andb_true_iff, Nat.leb_le, Nat.ltb_lt. split.
  - intros (x & Ix & E). apply Nat.eqb_eq in E. subst x. unfold cyc_of in Ix. apply in_rev in Ix. apply in_map_iff in Ix. destruct Ix as (j & E & Ij). apply in_seq in Ij.
    assert (j = b); [|lia]. apply (proj1 (NoDup_nth ord 0) ND); lia.
  - intros Q. exists (nth b ord 0). split; [|apply Nat.eqb_refl]. unfold cyc_of. apply in_rev. rewrite rev_involutive. apply in_map_iff. exists b. split; [auto|]. apply in_seq. lia.
Qed.

Definition dval (a i : nat) : Z := if a <? i then Z.of_N (cutw n W (itv a (i - 1))) else 0%Z.
Lemma step_deg a i : 1 <= a -> a <= i -> i < n - 1 -> sc_degree (cyc_of a i) (dval a i) (nth (nth i ord 0) rows []) = Z.of_N (cutw n W (itv a i)).
Proof.
  intros H1 H2 H3. pose proof (ch_sym _ _ _ Cd) as Sy. rewrite degree_fold. destruct CR as (L1 & L2 & ND & HR). rewrite (zsum_perm _ _ _ (HR i ltac:(lia))), zsum_map, zsum_filter. cbn [fst snd].
  rewrite (grow n W a i Sy H2 ltac:(lia)).
  erewrite (zsum_ext _ (fun v => (Z.of_N (if negb (itv a i v) then W i v else 0) - Z.of_N (if Nat.leb a v && Nat.ltb v i then W i v else 0))%Z)).
  - rewrite (zsum_sub (fun v => Z.of_N (if negb (itv a i v) then W i v else 0)%N)). rewrite !zsum_bsum. unfold dval. destruct (Nat.ltb_spec a i); [|cbn]; lia.
  - intros v Hv. apply in_seq in Hv. rewrite cyc_mem by lia. unfold itv. destruct (Nat.eqb_spec v i), (Nat.leb_spec a v), (Nat.ltb_spec v i), (Nat.leb_spec v i); cbn; lia.
Qed.
Lemma itv_low a i : 1 <= a -> a <= i -> i < n - 1 -> (c <= cutw n W (itv a i))%N.
Proof.
  intros H1 H2 H3. apply (ch_low _ _ _ Cd). split; [exists a|exists 0]; (split; [lia|]); unfold itv; [destruct (Nat.leb_spec a a), (Nat.leb_spec a i)|destruct (Nat.leb_spec a 0)]; cbn; auto; lia.
Qed.

(** the inner loop stops at the first vertex which does not extend the run *)
Lemma run_ok a : 1 <= a -> forall fuel i, a <= i -> i <= n - 1 -> (a < i -> cutw n W (itv a (i - 1)) = c) -> n - i < fuel ->
  exists i', sc_run (S fuel) rows c ord i (cyc_of a i) (dval a i) = Some (i', cyc_of a i') /\ i <= i' /\ i' <= n - 1 /\ (a < i' -> cutw n W (itv a (i' - 1)) = c) /\ (i' < n - 1 -> cutw n W (itv a i') <> c).
Proof.
  intro Ha. induction fuel as [|fuel IH]; intros i H1 H2 Hc Hf; [lia|]. remember (S fuel) as fu eqn:Efu. cbn [sc_run].
  assert (Ln : length rows = n) by apply CR. assert (Lo : length ord = n) by apply CR.
  assert (D : ((dval a i =? 0)%Z || (dval a i =? Z.of_N c)%Z) = true).
  { unfold dval. destruct (Nat.ltb_spec a i); [rewrite (Hc H), Z.eqb_refl; apply orb_true_r|reflexivity]. }
  rewrite D. cbn [andb]. rewrite Ln. destruct (Nat.ltb_spec (i + 1) n) as [Q|Q].
  - rewrite (nth_error_nth' ord 0) by lia. rewrite step_deg by lia. destruct (Z.eqb_spec (Z.of_N (cutw n W (itv a i))) (Z.of_N c)) as [E|E].
    + apply N2Z.inj in E. assert (EC : nth i ord 0 :: cyc_of a i = cyc_of a (i + 1)).
      { unfold cyc_of. replace (i + 1 - a) with (S (i - a)) by lia. rewrite seq_S, map_app, rev_app_distr. cbn. f_equal. f_equal. lia. }
      assert (ED : Z.of_N (cutw n W (itv a i)) = dval a (i + 1)). { unfold dval. destruct (Nat.ltb_spec a (i + 1)); [|lia]. do 3 f_equal. lia. }
      rewrite EC, ED. subst fu. destruct (IH (i + 1)) as (i' & R & A); try lia.
      { intros _. replace (i + 1 - 1) with i by lia. exact E. }
      exists i'. rewrite R. split; [auto|]. split; [lia|]. apply A.
    + assert (E' : cutw n W (itv a i) <> c) by congruence. subst fu. cbn [sc_run].
      assert (D' : ((Z.of_N (cutw n W (itv a i)) =? 0)%Z || (Z.of_N (cutw n W (itv a i)) =? Z.of_N c)%Z) = false).
      { pose proof (itv_low a i Ha H1 ltac:(lia)). pose proof (ch_pos _ _ _ Cd). apply orb_false_iff. split; apply Z.eqb_neq; [|auto]. clear - H H0. lia. }
      rewrite D'. cbn [andb]. exists i. auto 6.
  - exists i. split; [auto|]. split; [auto|]. split; [auto|]. split; [auto|]. intro. lia.
Qed.

Lemma scan_ok : forall fuel i, 1 <= i -> i <= n - 1 -> n - 1 - i < fuel ->
  (forall p q, 1 <= p -> p <= q -> i <= q -> q < n - 1 -> cutw n W (itv p q) = c -> i <= p) ->
  exists its, sc_scan fuel rows c ord i = Some its /\ items c n i its /\
    (forall a len, In (a, len) (runs its) -> 1 <= len /\ i <= a /\ a + len <= n - 1 /\ cutw n W (itv a (a + len - 1)) = c) /\
    (forall p q, i <= p -> p <= q -> q < n - 1 -> cutw n W (itv p q) = c -> exists a len, In (a, len) (runs its) /\ a <= p /\ q < a + len).
Proof.
  assert (Ln : length rows = n) by apply CR.
  induction fuel as [|fuel IH]; intros i H1 H2 Hf Inv; [lia|]. cbn [sc_scan]. rewrite Ln. destruct (Nat.ltb_spec i (n - 1)) as [Q|Q].
  - destruct (run_ok i H1 (2 * n - 1) i (le_n i) ltac:(lia) ltac:(lia) ltac:(lia)) as (i' & R & A1 & A2 & A3 & A4).
    replace (S (2 * n - 1)) with (2 * n) in R by lia. replace (cyc_of i i) with (@nil nat) in R by (unfold cyc_of; rewrite Nat.sub_diag; reflexivity).
    replace (dval i i) with 0%Z in R by (unfold dval; rewrite Nat.ltb_irrefl; reflexivity). rewrite R. clear R.
    assert (Lc : length (cyc_of i i') = i' - i) by (unfold cyc_of; rewrite rev_length, map_length, seq_length; auto).
    destruct (Nat.eq_dec i' i) as [->|Ne].
    + destruct (cyc_of i i) as [|? ?] eqn:Ec; [|cbn in Lc; lia]. specialize (A4 Q).
      destruct (IH (i + 1)) as (its & R & It & Ru & Mx); try lia.
      { intros p q B1 B2 B3 B4 B5. destruct (Nat.lt_ge_cases i p); [lia|]. exfalso. apply A4. specialize (Inv p q B1 B2 ltac:(lia) B4 B5).
        apply (sub_itv2 n W c Cd p q); auto; lia. }
      rewrite R. cbn [option_map]. exists (ItB i :: its). split; [auto|]. split; [apply is_B; [auto|]; replace (S i) with (i + 1) by lia; auto|]. split.
      * intros a len Ia. destruct (Ru a len Ia) as (B1 & B2 & B3 & B4). split; [auto|]. split; [lia|]. auto.
      * intros p q B1 B2 B3 B4. apply (Mx p q); auto. destruct (Nat.lt_ge_cases i p); [lia|]. exfalso. apply A4. apply (sub_itv2 n W c Cd p q); auto; lia.
    + destruct (cyc_of i i') as [|y ys] eqn:Ec; [cbn in Lc; lia|]. specialize (A3 ltac:(lia)). rewrite Lc.
      assert (Next : forall p q, 1 <= p -> p <= q -> i' <= q -> q < n - 1 -> cutw n W (itv p q) = c -> i' <= p).
      { intros p q B1 B2 B3 B4 B5. destruct (Nat.le_gt_cases i' p) as [|G]; [auto|]. exfalso. assert (i <= p) by (apply (Inv p q); auto; lia). apply A4; [lia|].
        apply (sub_itv2 n W c Cd i q); auto; try lia. destruct (Nat.eq_dec p i) as [->|]; [auto|].
        apply (join_itv n W c Cd i (i' - 1) p q); auto; lia. }
      destruct (IH i') as (its & R & It & Ru & Mx); auto; try lia.
      rewrite R. cbn [option_map]. exists (ItA (seq i (i' - i)) :: its). replace (i' - (i' - i)) with i by lia. split; [auto|]. split; [|split].
      * apply is_A; try lia. { apply (itv_even n W c Cd i (i' - 1)); auto; lia. } replace (i + (i' - i)) with i' by lia. auto.
      * intros a len Ia. cbn [runs flat_map app In] in Ia. rewrite seq_length in Ia. assert (Hd : hd 0 (seq i (i' - i)) = i) by (destruct (i' - i) eqn:?; [lia|reflexivity]). rewrite Hd in Ia.
        destruct Ia as [Ia|Ia]; [injection Ia as <- <-|].
        -- split; [lia|]. split; [lia|]. split; [lia|]. replace (i + (i' - i) - 1) with (i' - 1) by lia. auto.
        -- destruct (Ru a len Ia) as (B1 & B2 & B3 & B4). split; [auto|]. split; [lia|]. auto.
      * intros p q B1 B2 B3 B4. assert (Hd : hd 0 (seq i (i' - i)) = i) by (destruct (i' - i) eqn:?; [lia|reflexivity]). destruct (Nat.lt_ge_cases q i').
        -- exists i, (i' - i). cbn [runs flat_map app In]. rewrite seq_length, Hd. split; [left; auto|]. lia.
        -- destruct (Mx p q) as (a & len & Ia & B); auto. { apply (Next p q); auto; lia. } exists a, len. split; [right; auto|auto].
  - exists [ItB (n - 1)]. split; [auto|]. assert (i = n - 1) by lia. subst i. split; [constructor|]. split; [intros a len []|]. intros; lia.
Qed.

(** the cactus of the scan *)
Lemma scan_links M : mvalid M -> m_n M = n -> m_last M = n -> (forall f, gcut M f = 0%N) ->
  exists its M', sc_scan (S (length rows)) rows c ord 1 = Some its /\ sc_links c (ItB 0 :: its) 0 M = Some M' /\ mvalid M' /\ same_info M M' /\ n <= m_n M' /\ (forall f, proper (m_n M') f -> (c <= gcut M' f)%N) /\ (forall f, proper (m_n M') f -> gcut M' f = c -> proper n f /\ cutw n W f = c) /\ (forall S, proper n S -> cutw n W S = c -> exists f, gcut M' f = c /\ forall x, x < n -> f x = S x) /\
    items c n 1 its /\ exists ls, chainl c n 0 1 n ls (m_n M') /\ forall f, gcut M' f = tot c f ls.
Proof.
  intros V Nm Lm Z. pose proof (ch_n _ _ _ Cd) as Nn. pose proof (ch_pos _ _ _ Cd) as Pc. assert (Ln : length rows = n) by apply CR.
  destruct (scan_ok (S n) 1 (le_n 1) ltac:(lia) ltac:(lia)) as (its & R & It & Ru & Mx). { intros; lia. }
  destruct (links_ok c n Pc Nn (ItB 0 :: its) 0) with (prev := 0) (M := M) as (M' & ls & E & V' & S' & Ch & Cu & Rs); try lia; auto.
  { apply is_B; [lia|exact It]. }
  cbn [entry after] in Ch. rewrite Nm in Ch. exists its, M'. rewrite Ln. split; [exact R|]. split; [exact E|]. split; [auto|]. split; [auto|].
  split; [apply (chainl_le c Pc) in Ch; lia|]. assert (Rk : runs_ok n W c ls).
  { split.
    - intros l Il Nl. assert (Hr : In (l_a l, l_len l) (runs (ItB 0 :: its))) by (apply Rs; [lia|]; exists l; auto). cbn [runs flat_map app] in Hr. apply Ru in Hr. destruct Hr as (A1 & A2 & A3 & A4). auto.
    - intros i j A1 A2 A3 A4. destruct (Mx i j A1 A2 A3 A4) as (a & len & Ia & B1 & B2). destruct (Ru _ _ Ia) as (C1 & _).
      destruct (proj1 (Rs a len ltac:(lia))) as (l & Il & El & Ll). { exact Ia. } exists l. subst. auto. }
  assert (G : forall f, gcut M' f = tot c f ls) by (intro f; rewrite Cu, Z; apply N.add_0_l).
  destruct (chain_represents n W c ls (m_n M') Cd Ch Rk) as (A & B & C). split; [|split; [|split; [|split]]].
  - intros f Pf. rewrite G. auto.
  - intros f Pf. rewrite G. auto.
  - intros S PS ES. destruct (C S PS ES) as (f & T & F). exists f. rewrite G. auto.
  - exact It.
  - exists ls. auto.
Qed.
End Scan.
