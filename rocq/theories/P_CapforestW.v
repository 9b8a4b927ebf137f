(* P_CapforestW.v - modified_capforest for weights of any size (queue keys may be truncated): it
   terminates, never fails, and makes progress. *)
From Verif Require Import SpecRel M_UnionFind P_UnionFind SpecCut P_Cut M_Noi P_Heap P_HeapW P_BucketPQ P_Contract P_Capforest P_Hier.

Definition pqw_ok (n span : nat) (q : pq) (m : qmap) : Prop :=
  match q with
  | PHeap s => hinv n s /\ forall u, m u = habs s u
  | PBucket fifo s => wfb fifo n span s /\ forall u, m u = babs s u
  end.

Lemma pqw_insert n span q m v k : pqw_ok n span q m -> v < n -> m v = None -> (key32 k <= N.of_nat span)%N ->
  exists q', pq_step q (QInsert v k) = Some (q', RUnit) /\ exists m', pqw_ok n span q' m' /\ forall u, m' u = qset m v (Some (key32 k)) u.
Proof.
  intros W Hv Hm Hk. destruct q as [s|fifo s]; destruct W as [W A]; simpl.
  - destruct (insert_w n s v k W Hv) as (s' & -> & W' & A'). exists (PHeap s'). split; [auto|]. exists (habs s'). split; [simpl; auto|].
    intro u. rewrite A', <- A, Hm. unfold qset. destruct (u =? v); auto.
  - destruct (bq_step_ok fifo n span s m (QInsert v k) W A) as (s' & r & m' & E & W' & A' & Q); [simpl; auto|].
    simpl in E. rewrite E. destruct r; simpl in Q; try contradiction. exists (PBucket fifo s'). split; [auto|]. exists m'. split; [simpl; auto|].
    intro u. rewrite Q, Hm. reflexivity.
Qed.

Lemma pqw_increase n span q m v k : pqw_ok n span q m -> v < n -> m v <> None -> (key32 k <= N.of_nat span)%N ->
  exists q', pq_step q (QIncreaseKey v k) = Some (q', RUnit) /\ exists m', pqw_ok n span q' m' /\ forall u, m' u = qset m v (Some (key32 k)) u.
Proof.
  intros W Hv Hm Hk. destruct q as [s|fifo s]; destruct W as [W A]; simpl.
  - rewrite A in Hm. destruct (increase_w n s v k W Hm) as (s' & -> & W' & A'). exists (PHeap s'). split; [auto|]. exists (habs s'). split; [simpl; auto|].
    intro u. rewrite A'. unfold qset. destruct (u =? v); auto.
  - destruct (bq_step_ok fifo n span s m (QIncreaseKey v k) W A) as (s' & r & m' & E & W' & A' & Q); [simpl; auto|].
    simpl in E. rewrite E. destruct r; simpl in Q; try contradiction. exists (PBucket fifo s'). split; [auto|]. exists m'. split; [simpl; auto|].
    auto.
Qed.

Lemma pqw_empty n span q m : pqw_ok n span q m ->
  exists q' b m', pq_step q QEmpty = Some (q', RBool b) /\ pqw_ok n span q' m' /\ (b = true <-> forall v, m v = None) /\ forall u, m' u = m u.
Proof.
  intros W. destruct q as [s|fifo s]; destruct W as [W A]; simpl.
  - exists (PHeap s), (length (h_hp s) =? 0), m. split; [auto|]. split; [simpl; auto|]. split; [|auto]. fold (hlen s).
    destruct (Nat.eqb_spec (hlen s) 0) as [E|E]; split; try discriminate; auto.
    + intros _ v. rewrite A. now apply (habs_None n).
    + intros Hall. exfalso. destruct (hi_hp _ _ W 0 ltac:(lia)) as [H1 H2]. destruct (hi_el _ _ W _ H1) as (_ & _ & _ & H3).
      specialize (Hall (fst (el s (snd (hp s 0))))). rewrite A in Hall. unfold habs in Hall. rewrite H3 in Hall. discriminate.
  - destruct (bq_step_ok fifo n span s m QEmpty W A) as (s' & r & m' & E & W' & A' & Q); [simpl; auto|].
    simpl in E. injection E as <- <-. simpl in Q. eexists _, _, m'. split; [reflexivity|]. split; [simpl; auto|]. tauto.
Qed.

Lemma pqw_delmax n span q m : pqw_ok n span q m -> nonempty m ->
  exists q' v m', pq_step q QDeleteMax = Some (q', RNode v) /\ pqw_ok n span q' m' /\ m v <> None /\ forall u, m' u = qset m v None u.
Proof.
  intros W H. destruct q as [s|fifo s]; destruct W as [W A]; simpl.
  - destruct (delete_max_w n s W (nonempty_len n s m W A H)) as (s' & v & -> & W' & V & A'). exists (PHeap s'), v, (habs s').
    split; [auto|]. split; [simpl; auto|]. split; [rewrite A; auto|]. intro u. rewrite A'. unfold qset. destruct (u =? v); auto.
  - destruct (bq_step_ok fifo n span s m QDeleteMax W A) as (s' & r & m' & E & W' & A' & Q); [simpl; auto|].
    simpl in E. rewrite E. destruct r; simpl in Q; try contradiction. destruct Q as [[k [Q1 _]] Q2].
    exists (PBucket fifo s'), v, m'. split; [auto|]. split; [simpl; auto|]. split; [congruence|auto].
Qed.

Lemma key32_le k : (key32 k <= k)%N.
Proof. apply N.mod_le. lia. Qed.

Section ScanW.
Variables (cf : cfg) (G : graph) (c : N) (span : nat).
Let n := length G.
Let W := wt G.
Hypothesis U : undirected G.
Hypothesis Hspan : forall v, v < n -> (keyof cf c (deg G v) <= N.of_nat span)%N.

(** xs: scanned before the current vertex, latest first; pre: processed edges of cur (none if not
    inside the edge loop) *)
Record sinv_w (scanned : list nat) (rr : nat -> N) (ps : list (nat * nat)) (s : cfs) (m : qmap) : Prop := {
  siw_q : pqw_ok n span (s_q s) m;
  siw_lv : length (s_vis s) = n;
  siw_ls : length (s_seen s) = n;
  siw_lr : length (s_r s) = n;
  siw_vis : forall t, t < n -> (nth t (s_vis s) false = true <-> In t scanned);
  siw_r : forall t, t < n -> ~ In t scanned -> nth t (s_r s) 0%N = rr t;
  siw_m : forall t, m t <> None -> t < n /\ ~ In t scanned;
  siw_seen : forall t, t < n -> ~ In t scanned -> nth t (s_seen s) false = true -> m t <> None;
  siw_unseen : forall t, t < n -> ~ In t scanned -> nth t (s_seen s) false = false -> rr t = 0%N;
  siw_uf : inv n ps (s_uf s) }.

(** relaxing one edge of cur *)
Lemma relax_ok_w cur scanned rr ps s m t w :
  sinv_w scanned rr ps s m -> 
  (forall t, t < n -> ~ In t scanned -> nth t (s_seen s) false = false -> m t = None) ->
  t < n -> ~ In t scanned -> cur < n ->
  (keyof cf c (rr t + w) <= N.of_nat span)%N ->
  let rr' := fun x => if x =? t then (rr t + w)%N else rr x in
  exists s' m' ps', relax cf c cur s t w = Some s' /\ sinv_w scanned rr' ps' s' m' /\ s_vis s' = s_vis s /\
    (forall t, t < n -> ~ In t scanned -> nth t (s_seen s') false = false -> m' t = None) /\
    nth t (s_seen s') false = true /\ (forall x, nth x (s_seen s) false = true -> nth x (s_seen s') false = true) /\
    (ps' = ps \/ ps' = ps ++ [(cur, t)]) /\
    ((rr t < c)%N -> (c <= rr t + w)%N -> In (cur, t) ps').
Proof.
  intros [Q LV LS LR V R M SE US UF] UN Ht Nt Hc Hk rr'.
  unfold relax. rewrite (R t Ht Nt).
  set (opn := (rr t <? c)%N || (negb (cfg_nolimit cf) && (c =? 0)%N)).
  (* the union-find part *)
  assert (UFP : exists u' ps', (if opn && (c <=? rr t + w)%N
         then match uf_union (s_uf s) cur t with Some (u', _) => Some u' | None => None end
         else Some (s_uf s)) = Some u' /\ inv n ps' u' /\
         (ps' = ps \/ ps' = ps ++ [(cur, t)]) /\ ((rr t < c)%N -> (c <= rr t + w)%N -> In (cur, t) ps')).
  { destruct (opn && (c <=? rr t + w)%N) eqn:B.
    - apply andb_prop in B. destruct B as [_ B]. apply N.leb_le in B.
      destruct (union_inv n ps (s_uf s) cur t UF Hc Ht) as [u' [b [-> [I _]]]].
      exists u', (ps ++ [(cur, t)]). split; [auto|]. split; [auto|]. split; [auto|].
      intros _ _. apply in_or_app. right. left. auto.
    - exists (s_uf s), ps. split; [auto|]. split; [auto|]. split; [auto|].
      intros L1 L2. exfalso. apply N.ltb_lt in L1. apply N.leb_le in L2. unfold opn in B. rewrite L1, L2 in B. discriminate. }
  destruct UFP as [u' [ps' [-> [UF' [PE PU]]]]].
  change (if cfg_nolimit cf then (rr t + w)%N else N.min (rr t + w) c) with (keyof cf c (rr t + w)).
  assert (K32 : (key32 (keyof cf c (rr t + w)) <= N.of_nat span)%N) by (etransitivity; [apply key32_le|auto]).
  assert (R' : forall x, x < n -> ~ In x scanned -> nth x (upd (s_r s) t (rr t + w)%N) 0%N = rr' x).
  { intros x Hx Nx. rewrite nth_upd, LR. replace (t <? n) with true by (symmetry; apply Nat.ltb_lt; auto).
    rewrite andb_true_r. unfold rr'. destruct (x =? t); auto. }
  assert (Mq : forall m', (forall x, m' x = qset m t (Some (key32 (keyof cf c (rr t + w)))) x) ->
     forall x, m' x <> None -> x < n /\ ~ In x scanned).
  { intros m' Hm' x. rewrite Hm'. unfold qset. destruct (Nat.eqb_spec x t) as [->|N]; auto. }
  destruct (nth t (s_seen s) false) eqn:S.
  - pose proof (SE t Ht Nt S) as Mt.
    destruct (cfg_nolimit cf || opn) eqn:O.
    + destruct (pqw_increase n span (s_q s) m t (keyof cf c (rr t + w)) Q Ht Mt K32) as [q' [-> [m' [Q' Hm']]]].
      eexists _, m', ps'. split; [reflexivity|]. cbn [s_vis s_seen]. split; [constructor; cbn [s_q s_vis s_seen s_r s_uf]; auto|].
        -- rewrite upd_length. auto.
        -- eapply Mq; eauto.
        -- intros x Hx Nx Sx. rewrite Hm'. unfold qset. destruct (x =? t); [discriminate|]. apply SE; auto.
        -- intros x Hx Nx Sx. unfold rr'. destruct (Nat.eqb_spec x t) as [->|]; [congruence|auto].
        -- split; [auto|]. split; [|split; [auto|split; [auto|split; [auto|auto]]]].
           intros x Hx Nx Sx. rewrite Hm'. unfold qset. destruct (Nat.eqb_spec x t) as [->|]; [congruence|auto].
    + (* limiting, already at the bound: the key does not change *)
      eexists _, m, ps'. split; [reflexivity|]. cbn [s_vis s_seen]. split; [constructor; cbn [s_q s_vis s_seen s_r s_uf]; auto|].
      * rewrite upd_length. auto.
      * intros x Hx Nx Sx. unfold rr'. destruct (Nat.eqb_spec x t) as [->|]; [congruence|auto].
      * split; [auto|]. split; [auto|]. split; [auto|]. split; [auto|]. split; [auto|auto].
  - assert (Mt : m t = None) by (apply UN; auto).
    destruct (pqw_insert n span (s_q s) m t (keyof cf c (rr t + w)) Q Ht Mt K32) as [q' [-> [m' [Q' Hm']]]].
    assert (SN : forall x, nth x (upd (s_seen s) t true) false = if x =? t then true else nth x (s_seen s) false).
    { intro x. rewrite nth_upd, LS. replace (t <? n) with true by (symmetry; apply Nat.ltb_lt; auto). rewrite andb_true_r. reflexivity. }
    eexists _, m', ps'. split; [reflexivity|]. cbn [s_vis s_seen]. split; [constructor; cbn [s_q s_vis s_seen s_r s_uf]; auto|].
    + rewrite upd_length. auto.
    + rewrite upd_length. auto.
    + apply Mq. auto.
    + intros x Hx Nx. rewrite SN, Hm'. unfold qset. destruct (x =? t); [discriminate|]. auto.
    + intros x Hx Nx. rewrite SN. unfold rr'. destruct (x =? t); [discriminate|]. auto.
    + split; [auto|]. split; [|split; [rewrite SN, Nat.eqb_refl; auto|split; [|auto]]].
      * intros x Hx Nx. rewrite SN, Hm'. unfold qset. destruct (x =? t); [discriminate|]. auto.
      * intros x Hx. rewrite SN. destruct (x =? t); auto.
Qed.

Lemma sinv_ext_w scanned rr rr' ps s m : (forall t, t < n -> ~ In t scanned -> rr t = rr' t) -> sinv_w scanned rr ps s m -> sinv_w scanned rr' ps s m.
Proof.
  intros E [Q LV LS LR V R M SE US UF]. constructor; auto.
  - intros t Ht Nt. rewrite <- E; auto.
  - intros t Ht Nt St. rewrite <- E; auto.
Qed.

(** the edge loop of cur; xs scanned before *)
Lemma relax_all_ok_w cur xs : cur < n -> ~ In cur xs -> (forall x, In x xs -> x < n) -> NoDup (cur :: xs) ->
  (forall t, t < n -> (keyof cf c (dto W (cur :: xs) t) <= N.of_nat span)%N) ->
  forall es pre ps s m, pre ++ es = nth cur G [] ->
  sinv_w (cur :: xs) (fun t => dto W xs t + deltato pre t)%N ps s m ->
  (forall t, t < n -> ~ In t (cur :: xs) -> nth t (s_seen s) false = false -> m t = None) ->
  ((0 < c)%N -> forall t, t < n -> ~ In t (cur :: xs) -> (c <= dto W xs t + deltato pre t)%N -> caught ps t) ->
  exists s' m' ps', relax_all cf c cur s es = Some s' /\ sinv_w (cur :: xs) (dto W (cur :: xs)) ps' s' m' /\
    (forall t, t < n -> ~ In t (cur :: xs) -> nth t (s_seen s') false = false -> m' t = None) /\
    ((0 < c)%N -> forall t, t < n -> ~ In t (cur :: xs) -> (c <= dto W (cur :: xs) t)%N -> caught ps' t) /\
    (forall x, nth x (s_seen s) false = true -> nth x (s_seen s') false = true) /\
    (forall t w, In (t, w) es -> ~ In t (cur :: xs) -> nth t (s_seen s') false = true) /\
    (forall t, caught ps t -> caught ps' t).
Proof.
  intros Hc Nc Hxs ND Hk. induction es as [|[t w] es IH]; intros pre ps s m E I UN CA; cbn [relax_all].
  - rewrite app_nil_r in E. subst pre.
    assert (EX : forall t, dto W (cur :: xs) t = (dto W xs t + deltato (nth cur G []) t)%N).
    { intro t. unfold dto. cbn [sumN]. unfold W, wt, deltato. lia. }
    exists s, m, ps. split; [auto|]. split.
    { eapply sinv_ext_w; [|exact I]. intros t _ _. cbn beta. rewrite EX. reflexivity. }
    split; [auto|]. split; [intros P t Ht Nt; rewrite EX; auto|]. split; [auto|]. split; [intros t w []|auto].
  - pose proof (siw_lv _ _ _ _ _ I) as LV. rewrite LV.
    assert (IE : In (t, w) (nth cur G [])) by (rewrite <- E; apply in_or_app; right; left; auto).
    pose proof U as [U1 U2]. destruct (U1 cur t w IE) as [Ht Ntc]. fold n in Ht.
    replace (t <? n) with true by (symmetry; apply Nat.ltb_lt; auto).
    assert (E' : (pre ++ [(t, w)]) ++ es = nth cur G []) by (rewrite <- app_assoc; auto).
    destruct (nth t (s_vis s) false) eqn:V.
    + apply (siw_vis _ _ _ _ _ I t Ht) in V.
      assert (EQ : forall x, x < n -> ~ In x (cur :: xs) -> (dto W xs x + deltato pre x = dto W xs x + deltato (pre ++ [(t, w)]) x)%N).
      { intros x Hx Nx. rewrite deltato_app, deltato_one. destruct (Nat.eqb_spec t x) as [->|]; [contradiction|]. lia. }
      destruct (IH (pre ++ [(t, w)]) ps s m E') as [s' [m' [ps' [A [B [C [D [F [P K]]]]]]]]]; auto.
      { eapply sinv_ext_w; [|exact I]. exact EQ. }
      { intros Pc x Hx Nx. rewrite <- EQ by auto. auto. }
      exists s', m', ps'. split; [auto|]. split; [auto|]. split; [auto|]. split; [auto|]. split; [auto|]. split; [|auto].
      intros t' w' [H|H] Nt'; [injection H as <- <-; contradiction|eauto].
    + assert (Nt : ~ In t (cur :: xs)) by (intro H; apply (siw_vis _ _ _ _ _ I t Ht) in H; congruence).
      set (rr := fun x => (dto W xs x + deltato pre x)%N) in *.
      assert (LE : (rr t + w <= dto W (cur :: xs) t)%N).
      { unfold rr, dto. cbn [sumN]. unfold W at 2, wt. fold (deltato (nth cur G []) t). rewrite <- E', !deltato_app, deltato_one, Nat.eqb_refl. lia. }
      destruct (relax_ok_w cur (cur :: xs) rr ps s m t w I UN Ht Nt Hc) as [s1 [m1 [ps1 [A1 [B1 [V1 [C1 [D1 [F1 [P1 U3]]]]]]]]]].
      { etransitivity; [|apply (Hk t Ht)]. apply keyof_mono. auto. }
      rewrite A1.
      assert (EQ : forall x, (if Nat.eqb x t then rr t + w else rr x)%N = (dto W xs x + deltato (pre ++ [(t, w)]) x)%N).
      { intro x. rewrite deltato_app, deltato_one. unfold rr. rewrite (Nat.eqb_sym x t). destruct (Nat.eqb_spec t x) as [->|]; lia. }
      assert (CM : forall x, caught ps x -> caught ps1 x).
      { intros x [y [Ny Hy]]. exists y. split; [auto|]. destruct P1 as [->| ->]; [auto|apply in_or_app; auto]. }
      destruct (IH (pre ++ [(t, w)]) ps1 s1 m1 E') as [s' [m' [ps' [A [B [C [D [F [P K]]]]]]]]]; auto.
      { eapply sinv_ext_w; [|exact B1]. intros x _ _. apply EQ. }
      { intros Pc x Hx Nx. rewrite <- EQ. destruct (Nat.eqb_spec x t) as [->|N].
        - intro L. destruct (N.lt_ge_cases (rr t) c) as [L'|L'].
          + exists cur. split; [auto|]. apply U3; auto.
          + apply CM, CA; auto.
        - intro L. apply CM, CA; auto. }
      exists s', m', ps'. split; [auto|]. split; [auto|]. split; [auto|]. split; [auto|]. split; [auto|]. split; [|auto].
      intros t' w' [H|H] Nt'; [|eauto]. injection H as <- <-. auto.
Qed.

(** the main loop *)
Record linv_w (xs : list nat) (ps : list (nat * nat)) (s : cfs) (m : qmap) : Prop := {
  liw_s : sinv_w xs (dto W xs) ps s m;
  liw_nd : NoDup xs;
  liw_lt : forall x, In x xs -> x < n;
  liw_un : xs <> [] -> forall t, t < n -> ~ In t xs -> nth t (s_seen s) false = false -> m t = None;
  liw_start : xs = [] -> exists v, m v <> None /\ forall t, m t <> None -> t = v;
  liw_nb : forall x t w, In x xs -> In (t, w) (nth x G []) -> In t xs \/ m t <> None;
  liw_ca : ((0 < c)%N -> forall t, t < n -> ~ In t xs -> (c <= dto W xs t)%N -> caught ps t);
  liw_hd : (0 < c)%N -> forall z l, xs = z :: l -> (c <= dto W l z)%N -> caught ps z }.

Lemma scan_step_w xs ps s m q2 cur m2 : linv_w xs ps s m -> m cur <> None -> pqw_ok n span q2 m2 -> (forall u, m2 u = qset m cur None u) ->
  exists s' m' ps', relax_all cf c cur (mk_cfs q2 (upd (s_vis s) cur true) (s_seen s) (s_r s) (s_uf s)) (nth cur G []) = Some s' /\
    linv_w (cur :: xs) ps' s' m'.
Proof.
  intros [I ND LT UN ST NB CA HD] Mc Q2 M2.
  destruct (siw_m _ _ _ _ _ I cur Mc) as [Hc Nc].
  assert (ND' : NoDup (cur :: xs)) by (constructor; auto).
  assert (LT' : forall x, In x (cur :: xs) -> x < n) by (intros x [<-|Hx]; auto).
  assert (Hk : forall t, t < n -> (keyof cf c (dto W (cur :: xs) t) <= N.of_nat span)%N).
  { intros t Ht. etransitivity; [|apply (Hspan t Ht)]. apply keyof_mono, (dto_deg G U); auto. }
  assert (Mne : forall t, t < n -> ~ In t (cur :: xs) -> nth t (s_seen s) false = false -> m2 t = None).
  { intros t Ht Nt St. rewrite M2. unfold qset. destruct (Nat.eqb_spec t cur) as [->|N]; [auto|].
    destruct xs as [|x0 xs0] eqn:EX.
    - destruct (ST eq_refl) as [v [_ Hv]]. destruct (m t) eqn:Mt; [|auto]. exfalso. apply N.
      rewrite (Hv t), (Hv cur); congruence.
    - rewrite <- EX in *. apply UN; auto; [congruence|]. intro H. apply Nt. right. auto. }
  destruct (relax_all_ok_w cur xs Hc Nc LT ND' Hk (nth cur G []) [] ps
              (mk_cfs q2 (upd (s_vis s) cur true) (s_seen s) (s_r s) (s_uf s)) m2 eq_refl)
    as [s' [m' [ps' [A [B [C [D [F [P K]]]]]]]]].
  - destruct I as [Q LV LS LR V R M SE US UF]. constructor; cbn [s_q s_vis s_seen s_r s_uf]; auto.
    + rewrite upd_length. auto.
    + intros t Ht. rewrite nth_upd, LV. replace (cur <? n) with true by (symmetry; apply Nat.ltb_lt; auto).
      rewrite andb_true_r. cbn [In]. destruct (Nat.eqb_spec t cur) as [->|N]; [tauto|]. rewrite V by auto.
      split; [auto|intros [H|H]; congruence || auto].
    + intros t Ht Nt. rewrite R; auto; [unfold deltato; simpl; lia|]. intro H. apply Nt. right. auto.
    + intros t E. rewrite M2 in E. unfold qset in E. destruct (Nat.eqb_spec t cur) as [Q'|N]; [congruence|].
      destruct (M t E) as [X Y]. split; [auto|]. intros [H|H]; congruence || auto.
    + intros t Ht Nt St. rewrite M2. unfold qset. destruct (Nat.eqb_spec t cur) as [->|N]; [exfalso; apply Nt; left; auto|].
      apply SE; auto. intro H. apply Nt. right. auto.
    + intros t Ht Nt St. rewrite US; auto. intro H. apply Nt. right. auto.
  - exact Mne.
  - intros Pc t Ht Nt L. apply CA; auto; [intro H; apply Nt; right; auto|]. unfold deltato in L. simpl in L. lia.
  - exists s', m', ps'. split; [exact A|]. constructor; auto.
    + intro H. discriminate.
    + intros x t w [<-|Hx] Hin.
      * destruct (in_dec Nat.eq_dec t (cur :: xs)) as [It|It]; [auto|right].
        pose proof U as [U1 _]. destruct (U1 cur t w Hin) as [Ht _].
        apply (siw_seen _ _ _ _ _ B t Ht It). eapply P; eauto.
      * destruct (NB x t w Hx Hin) as [H|H]; [left; right; auto|].
        destruct (Nat.eq_dec t cur) as [->|N]; [left; left; auto|].
        destruct (siw_m _ _ _ _ _ I t H) as [Ht Nt].
        right. assert (It : ~ In t (cur :: xs)) by (intros [X|X]; congruence || auto).
        apply (siw_seen _ _ _ _ _ B t Ht It). apply F. cbn [s_seen].
        destruct (nth t (s_seen s) false) eqn:S; [auto|]. exfalso.
        specialize (Mne t Ht It S). rewrite M2 in Mne. unfold qset in Mne. destruct (Nat.eqb_spec t cur); congruence.
    + intros Pc z l E L. injection E as <- <-. apply K, CA; auto.
Qed.

Lemma scan_loop_ok_w : forall fuel xs ps s m, linv_w xs ps s m -> length xs + fuel = S n ->
  exists u ps' xs' s' m', scan_loop fuel cf G c s = Some u /\ linv_w xs' ps' s' m' /\ s_uf s' = u /\ xs' <> [] /\ forall v, m' v = None.
Proof.
  induction fuel as [|fuel IH]; intros xs ps s m L Hf.
  - exfalso. assert (length xs <= n).
    { rewrite <- (seq_length n 0). apply NoDup_incl_length; [apply (liw_nd _ _ _ _ L)|].
      intros x Hx. apply in_seq. pose proof (liw_lt _ _ _ _ L x Hx). lia. }
    lia.
  - cbn [scan_loop]. destruct (pqw_empty n span (s_q s) m (siw_q _ _ _ _ _ (liw_s _ _ _ _ L))) as [q1 [b [m1 [-> [Q1 [B M1]]]]]].
    destruct b.
    + exists (s_uf s), ps, xs, s, m. split; [auto|]. split; [auto|]. split; [auto|]. split; [|apply B; auto].
      intro E. destruct (liw_start _ _ _ _ L E) as [v [Hv _]]. apply Hv. apply B. auto.
    + assert (NE : nonempty m1).
      { assert (H : exists v, v < n /\ m v <> None).
        { destruct (existsb (fun v => match m v with Some _ => true | None => false end) (seq 0 n)) eqn:X.
          - apply existsb_exists in X. destruct X as [v [Hv X]]. exists v. apply in_seq in Hv. split; [lia|]. destruct (m v); [discriminate|discriminate].
          - exfalso. assert (false = true) as H; [|discriminate]. apply B. intro v. destruct (m v) eqn:Mv; [|auto].
            destruct (siw_m _ _ _ _ _ (liw_s _ _ _ _ L) v ltac:(congruence)) as [Hv _]. rewrite existsb_false in X.
            specialize (X v ltac:(apply in_seq; lia)). rewrite Mv in X. discriminate. }
        destruct H as [v [_ Hv]]. destruct (m v) as [k|] eqn:Mv; [|congruence]. exists v, k. rewrite M1. auto. }
      destruct (pqw_delmax n span q1 m1 Q1 NE) as [q2 [cur [m2 [-> [Q2 [MX M2]]]]]].
      rewrite M1 in MX.
      destruct (scan_step_w xs ps s m q2 cur m2 L MX Q2) as [s' [m' [ps' [-> L']]]].
      { intro u. rewrite M2. unfold qset. rewrite M1. reflexivity. }
      apply (IH _ _ _ _ L'). simpl. lia.
Qed.

Lemma select_ok_w : 0 < n -> span = N.to_nat (key_limit cf G c) -> pqw_ok n span (select_pq cf G c) qempty.
Proof.
  intros Hn ->. unfold select_pq. fold n.
  destruct (cfg_pq cf); [destruct ((10000 <? key_limit cf G c)%N && (N.of_nat n <? key_limit cf G c)%N)| | |];
    simpl; split; try apply wfh_init; try apply wfb_init; intro u; unfold qempty; symmetry; try apply habs_init; apply babs_init.
Qed.

Theorem capforest_ok_w rnd : 0 < n -> span = N.to_nat (key_limit cf G c) ->
  exists u ps, capforest cf rnd G c = Some u /\ inv n ps u /\
    ((0 < c)%N -> (forall v, v < n -> (c <= deg G v)%N) -> exists x y, x <> y /\ In (x, y) ps).
Proof.
  intros Hn Hs. unfold capforest. fold n.
  assert (Hst : rnd mod n < n) by (apply Nat.mod_upper_bound; lia).
  destruct (pqw_insert n span (select_pq cf G c) qempty (rnd mod n) 0 (select_ok_w Hn Hs) Hst eq_refl) as [q [-> [m [Q M]]]].
  { unfold key32. rewrite N.mod_0_l by lia. lia. }
  set (s0 := mk_cfs q (repeat false n) (repeat false n) (repeat 0%N n) (uf_init n)).
  assert (RB : forall t, nth t (repeat false n) false = false) by (intro; apply nth_repeat_any).
  assert (L0 : linv_w [] [] s0 m).
  { constructor.
    - constructor; cbn [s0 s_q s_vis s_seen s_r s_uf]; auto; try apply repeat_length.
      + intros t Ht. rewrite RB. split; [discriminate|intros []].
      + intros t Ht _. apply nth_repeat_lt. auto.
      + intros t E. rewrite M in E. unfold qset, qempty in E. destruct (Nat.eqb_spec t (rnd mod n)) as [Q'|]; [|congruence]. rewrite Q'.
        split; [auto|intros []].
      + intros t Ht _. rewrite RB. discriminate.
      + apply inv_init.
    - constructor.
    - intros x [].
    - congruence.
    - intros _. exists (rnd mod n). rewrite M. unfold qset. rewrite Nat.eqb_refl. split; [discriminate|].
      intros t. rewrite M. unfold qset, qempty. destruct (Nat.eqb_spec t (rnd mod n)); congruence.
    - intros x t w [].
    - intros P t Ht _ L. unfold dto in L. simpl in L. lia.
    - discriminate. }
  destruct (scan_loop_ok_w (S n) [] [] s0 m L0 eq_refl) as [u [ps [xs [s' [m' [E [L [Eu [NE ME]]]]]]]]].
  exists u, ps. split; [auto|]. destruct L as [I ND LT UN ST NB CA HD]. subst u. split; [apply (siw_uf _ _ _ _ _ I)|].
  intros Pc Hdeg. destruct xs as [|z l]; [congruence|]. destruct (HD Pc z l eq_refl) as [x [Nx Hx]]; [|eauto].
  assert (Hz : z < n) by (apply LT; left; auto). etransitivity; [apply (Hdeg z Hz)|].
  (* all neighbours of the last scanned vertex were scanned before *)
  assert (NBz : forall t w, In (t, w) (nth z G []) -> In t l).
  { intros t w H. pose proof U as [U1 _]. destruct (U1 z t w H) as [_ N]. destruct (NB z t w (or_introl eq_refl) H) as [[X|X]|X]; congruence || auto. }
  unfold dto. pose proof U as [U1 U2]. inversion ND as [|? ? N1 N2]; subst.
  rewrite (sumN_ext _ (fun x => W z x)) by (intros y Hy; apply U2; [apply LT; right; auto|auto]).
  unfold deg, W, wt. rewrite (sumN_ext _ (fun x => sumN (fun e => if fst e =? x then snd e else 0%N) (nth z G []))) by (intros; apply sumN_filter).
  rewrite sumN_swap. apply sumN_le. intros [y w] He. cbn [fst snd].
  rewrite (sumN_ext _ (fun x => if x =? y then w else 0%N)) by (intros; rewrite Nat.eqb_sym; reflexivity).
  rewrite (sumN_single_nat (fun _ => w)); [lia|auto|eauto].
Qed.
End ScanW.
