(* P_Flow3.v - proofs about push_relabel: relabel, gap heuristic, discharge. *)
From Verif Require Import SpecCut LibZ P_Mutable M_PushRelabel P_Flow P_Flow2 P_MutableIO.

Section PR.
Context (R : list (list half)) (ts : list nat) (src : nat) (V : valid_rows R).
Let n := length R.
Context (Hts : forall t, In t ts -> t < n) (Hsrc : In src ts).

Notation inv := (inv R ts src).

Definition stuck (s : prs) (v : nat) : Prop :=
  forall e t w r, slot R v e = Some (t, w, r) -> (flo s v e < Z.of_N w)%Z -> dist s v <= dist s t.

Lemma qinv_hole ts' ex ac q h h' : qinv n ts' ex ac q h -> h = h' -> qinv n ts' ex ac q h'.
Proof. intros Q <-. auto. Qed.

Lemma relabel_ok K s v : inv K s v -> v < n -> ~ In v ts -> (0 < exc s v)%Z -> stuck s v ->
  let s' := relabel R v s in
  inv K s' n /\ p_fl s' = p_fl s /\ p_ex s' = p_ex s /\ dist s v < dist s' v /\ (forall u, u <> v -> dist s' u = dist s u).
Proof.
  intros [F L Q LI] Hv Nv P St s'. unfold s', relabel. set (d := low_dist R s v). set (ds' := upd (p_ds s) v d). set (ct' := bump _ d 1).
  destruct (low_dist_spec R s v) as (A & B & C). fold d in A, B, C.
  pose proof (l_len _ _ _ _ _ LI) as DL. pose proof (l_clen _ _ _ _ _ LI) as CL.
  pose proof (l_lt _ _ _ _ _ LI v Hv) as Dv.
  assert (UP : dist s v < d).
  { apply C; [unfold n in *; lia|]. intros e t w r S N'. pose proof (f_cap _ _ _ _ _ F v e t w r S). pose proof (St e t w r S ltac:(lia)). lia. }
  assert (SELF : nth v ds' 0 = d) by (apply nth_upd_eq; unfold n in *; lia).
  assert (OTHER : forall u, u <> v -> nth u ds' 0 = dist s u) by (intros; apply nth_upd_neq; auto).
  assert (L' : labv R (p_fl s) ds').
  { intros x e t w r S Re. destruct (V x e t w r S) as [Ht [Nt _]]. destruct (Nat.eq_dec x v) as [->|Nx].
    - rewrite SELF, OTHER by auto. apply (B e t w r S). lia.
    - rewrite (OTHER x) by auto. pose proof (L x e t w r S Re). destruct (Nat.eq_dec t v) as [->|Ntv]; [rewrite SELF; lia|]. rewrite OTHER by auto. auto. }
  assert (LS : nth src ds' 0 = n) by (rewrite OTHER by (intro; subst; contradiction); apply (l_src _ _ _ _ _ LI)).
  assert (BD : d < 2 * n).
  { rewrite <- SELF. apply (label_bound R ts src Hts Hsrc K (p_fl s) (p_ex s)); auto. intro; subst; contradiction. }
  destruct (enqueue_q n ts (p_ex s) (p_ac s) (p_q s) v (p_fl s) ds' ct' v Q Hv) as (E1 & E2 & E3 & E4 & E5 & _). cbv zeta in *.
  rewrite Nat.eqb_refl in E5. split; [|split; [auto|split; [auto|rewrite E3; split; [rewrite SELF; auto|auto]]]].
  constructor; rewrite ?E1, ?E2, ?E3, ?E4; auto.
  constructor.
  - unfold ds'. rewrite upd_length. auto.
  - auto.
  - intros t Ht Nt. rewrite OTHER by (intro; subst; contradiction). apply (l_snk _ _ _ _ _ LI); auto.
  - intros u Hu Nu. destruct (Nat.eq_dec u v) as [->|]; [lia|]. rewrite OTHER by auto. apply (l_ge1 _ _ _ _ _ LI); auto.
  - intros u Hu. destruct (Nat.eq_dec u v) as [->|]; [lia|]. rewrite OTHER by auto. apply (l_lt _ _ _ _ _ LI); auto.
  - unfold ct'. rewrite !bump_length. auto.
  - intros l Hl. apply (cnt_upd R); auto. apply (l_cnt _ _ _ _ _ LI).
Qed.

(** * gap heuristic *)
Lemma gap_prefix K s v level k : inv K s v -> v < n -> ~ In v ts -> 1 <= level <= n -> k <= n ->
  let s' := fold_left (gap_node n level) (seq 0 k) s in
  p_fl s' = p_fl s /\ p_ex s' = p_ex s /\ length (p_ds s') = n /\ length (p_ct s') = 2 * n /\
  (forall u, dist s' u = if (u <? k) && (level <=? dist s u) then Nat.max (dist s u) n else dist s u) /\
  (forall l, 1 <= l < n -> (at_level n (p_ds s') l <= nth l (p_ct s') 0)%Z) /\
  (qinv n ts (p_ex s') (p_ac s') (p_q s') (if (v <? k) && (level <=? dist s v) then n else v)).
Proof.
  intros [F L Q LI] Hv Nv Hl Hk. induction k as [|k IH]; cbv zeta in *.
  - cbn [seq fold_left]. do 2 (split; [reflexivity|]). split; [apply (l_len _ _ _ _ _ LI)|]. split; [apply (l_clen _ _ _ _ _ LI)|].
    split; [intro u; reflexivity|]. split; [apply (l_cnt _ _ _ _ _ LI)|]. exact Q.
  - rewrite seq_S, fold_left_app. cbn [fold_left plus]. destruct (IH ltac:(lia)) as (A1 & A2 & A3 & A4 & A5 & A6 & A7).
    set (s1 := fold_left (gap_node n level) (seq 0 k) s) in *. clearbody s1. unfold gap_node.
    assert (Dk : dist s1 k = dist s k) by (rewrite A5; destruct (Nat.ltb_spec k k); [lia|reflexivity]).
    assert (KT : forall u, u <> k -> (u <? S k) = (u <? k)).
    { intros u Nu. destruct (Nat.ltb_spec u (S k)), (Nat.ltb_spec u k); auto; lia. }
    assert (KK : (k <? S k) = true) by (apply Nat.ltb_lt; lia). assert (KF : (k <? k) = false) by (apply Nat.ltb_ge; lia).
    rewrite Dk. destruct (Nat.ltb_spec (dist s k) level) as [D|D].
    + assert (LE : (level <=? dist s k) = false) by (apply Nat.leb_gt; lia).
      do 4 (split; [auto|]). split; [|split; [auto|]].
      * intro u. rewrite A5. destruct (Nat.eq_dec u k) as [->|Nu]; [rewrite LE, !andb_false_r; reflexivity|]. rewrite KT by auto. reflexivity.
      * eapply qinv_hole; [exact A7|]. destruct (Nat.eq_dec v k) as [->|Nu]; [rewrite LE, !andb_false_r; reflexivity|]. rewrite KT by auto. reflexivity.
    + assert (LE : (level <=? dist s k) = true) by (apply Nat.leb_le; lia).
      set (ds' := upd (p_ds s1) k _). set (ct' := bump (bump _ _ _) _ _).
      destruct (enqueue_q n ts (p_ex s1) (p_ac s1) (p_q s1) _ (p_fl s1) ds' ct' k A7 ltac:(lia)) as (E1 & E2 & E3 & E4 & E5 & _). cbv zeta in *.
      rewrite E1, E2, E3, E4. do 2 (split; [auto|]). split; [unfold ds'; rewrite upd_length; auto|]. split; [unfold ct'; rewrite !bump_length; auto|].
      split; [|split].
      * intro u. unfold ds'. destruct (Nat.eq_dec u k) as [->|Nu].
        -- rewrite nth_upd_eq by lia. rewrite KK, LE. reflexivity.
        -- rewrite nth_upd_neq by auto. rewrite A5, KT by auto. reflexivity.
      * intros l Hl'. unfold ds', ct'. rewrite <- Dk at 2. apply (cnt_upd R); auto.
      * eapply qinv_hole; [exact E5|]. destruct (Nat.eq_dec v k) as [->|Nu].
        -- rewrite KK, KF, LE. cbn [andb]. rewrite Nat.eqb_refl. reflexivity.
        -- rewrite KT by auto. destruct ((v <? k) && (level <=? dist s v)).
           ++ destruct (n =? k); reflexivity.
           ++ destruct (Nat.eqb_spec v k); [contradiction|reflexivity].
Qed.

Lemma gap_ok K s v : inv K s v -> v < n -> ~ In v ts -> stuck s v -> dist s v < n -> (nth (dist s v) (p_ct s) 0 <= 1)%Z ->
  let s' := gap_heuristic n (dist s v) s in
  inv K s' n /\ p_fl s' = p_fl s /\ p_ex s' = p_ex s /\ dist s v < dist s' v /\ (forall u, dist s u <= dist s' u).
Proof.
  intros I Hv Nv St Dn C s'. pose proof (l_ge1 _ _ _ _ _ (i_l _ _ _ _ _ _ I) v Hv Nv) as D1.
  destruct (gap_prefix K s v (dist s v) n I Hv Nv ltac:(lia) ltac:(lia)) as (A1 & A2 & A3 & A4 & A5 & A6 & A7). cbv zeta in *.
  unfold gap_heuristic in s'. fold s' in A1, A2, A3, A4, A5, A6, A7. destruct I as [F L Q LI].
  assert (LV : (v <? n) = true) by (apply Nat.ltb_lt; auto).
  rewrite LV, Nat.leb_refl in A7. cbn [andb] in A7.
  assert (DV : dist s' v = n) by (rewrite A5, LV, Nat.leb_refl; cbn [andb]; lia).
  assert (SD : forall u, u < n -> dist s' u = if dist s v <=? dist s u then Nat.max (dist s u) n else dist s u).
  { intros u Hu. rewrite A5. apply Nat.ltb_lt in Hu. rewrite Hu. reflexivity. }
  assert (MONO : forall u, dist s u <= dist s' u) by (intro u; rewrite A5; destruct ((u <? n) && (dist s v <=? dist s u)); lia).
  (* v is alone on its level *)
  assert (ONLY : forall u, u < n -> dist s u = dist s v -> u = v).
  { intros u Hu Eu. destruct (Nat.eq_dec u v) as [|Nu]; [auto|exfalso].
    pose proof (l_cnt _ _ _ _ _ LI (dist s v) ltac:(fold n; lia)) as CC. fold n in CC |- *.
    assert (2 <= at_level n (p_ds s) (dist s v))%Z; [|clear - C CC H; lia].
    unfold at_level. transitivity (zsum n (fun x => (if Nat.eqb x u then 1 else 0) + (if Nat.eqb x v then 1 else 0))%Z).
    - rewrite zsum_add, (zsum_single n u (fun _ => 1%Z)), (zsum_single n v (fun _ => 1%Z)) by auto. lia.
    - apply zsum_le. intros x Hx. destruct (Nat.eqb_spec x u) as [->|]; [rewrite Eu, Nat.eqb_refl; destruct (Nat.eqb_spec u v); [contradiction|lia]|].
      destruct (Nat.eqb_spec x v) as [->|]; [rewrite Nat.eqb_refl; lia|]. destruct (dist s x =? dist s v); lia. }
  split; [|split; [auto|split; [auto|split; [lia|auto]]]].
  constructor; [rewrite A1, A2; auto| |rewrite A2; rewrite A2 in A7; exact A7|].
  - rewrite A1. intros x e t w r S Re. destruct (V x e t w r S) as [Ht [Nt _]]. destruct (slot_lt _ _ _ _ S) as [Hx _].
    pose proof (L x e t w r S Re) as LL. rewrite !SD by auto.
    destruct (Nat.leb_spec (dist s v) (dist s x)) as [X|X], (Nat.leb_spec (dist s v) (dist s t)) as [Y|Y]; try lia.
    assert (x = v) by (apply ONLY; [auto|lia]). subst x. pose proof (St e t w r S Re). lia.
  - constructor; auto.
    + assert (Hs : src < n) by auto. rewrite SD by auto. rewrite (l_src _ _ _ _ _ LI); fold n. destruct (dist s v <=? n); lia.
    + intros t Ht Nt. rewrite SD by auto. rewrite (l_snk _ _ _ _ _ LI t Ht Nt). destruct (Nat.leb_spec (dist s v) 0); [lia|reflexivity].
    + intros u Hu Nu. pose proof (MONO u). pose proof (l_ge1 _ _ _ _ _ LI u Hu Nu). lia.
    + intros u Hu. rewrite SD by auto. pose proof (l_lt _ _ _ _ _ LI u Hu) as X. fold n in X |- *. destruct (dist s v <=? dist s u); lia.
Qed.

(** * discharge *)
Lemma take_ok K s v : inv K s n -> In v (p_q s) -> inv K (take v s) v.
Proof.
  intros [F L Q LI] Hv. constructor; auto. cbn. destruct Q as [Q1 Q2 Q3 Q4 Q5]. destruct (Q3 v Hv) as [Vn Vt]. constructor.
  - rewrite upd_length. auto.
  - clear -Q2. induction (p_q s) as [|x l IH]; [constructor|]. inversion Q2; subst. cbn. destruct (Nat.eq_dec v x); [auto|]. constructor; [|auto].
    intro H. apply in_remove in H. tauto.
  - intros x Hx. apply in_remove in Hx. apply Q3. tauto.
  - intros x Hx. destruct (Nat.eq_dec x v) as [->|N].
    + rewrite nth_upd_eq by lia. split; [discriminate|]. intros [H|H]; [contradiction|]. apply in_remove in H. tauto.
    + rewrite nth_upd_neq by auto. rewrite Q4 by auto. split; (intros [H|H]; [auto|right]).
      * apply in_in_remove; auto.
      * apply in_remove in H. tauto.
  - intros x Hx Nx Nh P. apply in_in_remove; [auto|]. apply Q5; auto. lia.
Qed.

Lemma discharge_ok K s v : inv K s n -> In v (p_q s) ->
  let s' := discharge R v (take v s) in
  inv K s' n /\ (forall u, dist s u <= dist s' u) /\
  (dist s v < dist s' v \/
   p_ds s' = p_ds s /\ exists new, p_q s' = remove Nat.eq_dec v (p_q s) ++ new /\ forall x, In x new -> dist s x < dist s v).
Proof.
  intros I Hv s'. destruct (q_in _ _ _ _ _ _ (i_q _ _ _ _ _ _ I) v Hv) as [Vn Vt].
  pose proof (take_ok K s v I Hv) as [F L Q LI].
  destruct (push_rounds_ok R ts src V Hts K v (take v s) (rl R v) F Q ltac:(lia)) as (PU & St & _). cbv zeta in *.
  unfold s', discharge. fold (rl R v). set (s1 := push_rounds R v (rl R v) (take v s)) in *. clearbody s1.
  assert (D1 : p_ds s1 = p_ds s) by (rewrite (pu_ds _ _ _ _ _ _ _ PU); reflexivity).
  assert (I1 : inv K s1 v).
  { constructor; [apply (pu_f _ _ _ _ _ _ _ PU)|apply (pu_lab _ _ _ _ _ _ _ PU); exact L|apply (pu_q _ _ _ _ _ _ _ PU)|].
    rewrite D1, (pu_ct _ _ _ _ _ _ _ PU). apply LI. }
  destruct (Z.ltb_spec 0%Z (exc s1 v)) as [P|P].
  - assert (ST : stuck s1 v).
    { intros e t w r S Re. rewrite D1. apply (St e t w r); auto. apply slot_lt in S. tauto. }
    destruct ((nth (dist s1 v) (p_ct s1) 0 =? 1)%Z && (dist s1 v <? length R)) eqn:B.
    + apply andb_prop in B. destruct B as [B1 B2]. apply Z.eqb_eq in B1. apply Nat.ltb_lt in B2.
      destruct (gap_ok K s1 v I1 Vn Vt ST B2 ltac:(lia)) as (G1 & _ & _ & G4 & G5). cbv zeta in *. rewrite D1 in G1, G4, G5. fold n. rewrite !D1.
      split; [auto|]. split; [auto|]. left. auto.
    + destruct (relabel_ok K s1 v I1 Vn Vt P ST) as (G1 & _ & _ & G4 & G5). cbv zeta in *. rewrite D1 in G4.
      split; [auto|]. split; [|left; auto]. intro u. destruct (Nat.eq_dec u v) as [->|Nu]; [lia|]. rewrite G5, D1 by auto. lia.
  - split; [|split; [rewrite D1; auto|right; split; [auto|]]].
    + destruct I1 as [F1 L1 Q1 LI1]. constructor; auto. destruct Q1 as [Q1 Q2 Q3 Q4 Q5]. constructor; auto.
      intros x Hx Nx _ Px. destruct (Nat.eq_dec x v) as [->|N]; [lia|auto].
    + destruct (pu_new _ _ _ _ _ _ _ PU) as (new & E & H). exists new. split; [exact E|exact H].
Qed.
End PR.
