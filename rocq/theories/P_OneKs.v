(* P_OneKs.v - proofs about one_ks. *)
From Verif Require Import SpecRel M_UnionFind P_UnionFind SpecCut P_Cut M_OneKs P_Contract P_Heur.

(** [r] falls on the entry [e] after [l1]; the first entry also has r = 0 *)
Definition hits (l1 : list (nat * nat * N)) (e : nat * nat * N) (acc r : N) : Prop :=
  (l1 = [] \/ (acc + sumN snd l1 < r)%N) /\ (r <= acc + sumN snd l1 + snd e)%N.

Lemma lb_hit l1 : forall acc e l2 r, hits l1 e acc r -> lower_bound (prefixsum acc (map snd (l1 ++ e :: l2))) r = length l1.
Proof.
  induction l1 as [|x l1 IH]; intros acc e l2 r [A B]; cbn [app map prefixsum lower_bound length sumN] in *.
  - destruct (N.ltb_spec (acc + snd e) r); [lia|auto].
  - destruct A as [A|A]; [discriminate|]. destruct (N.ltb_spec (acc + snd x) r) as [L|L]; [|lia].
    f_equal. apply IH. split; [right|]; lia.
Qed.

Lemma lb_split es : forall acc r, es <> [] -> (r <= acc + sumN snd es)%N -> exists l1 e l2, es = l1 ++ e :: l2 /\ hits l1 e acc r.
Proof.
  induction es as [|x es IH]; intros acc r Ne L; [congruence|]. cbn [sumN] in L.
  destruct (N.leb_spec r (acc + snd x)) as [Q|Q].
  - exists [], x, es. split; [auto|]. split; [auto|]. cbn. lia.
  - destruct es as [|y es]; [cbn in L; lia|].
    destruct (IH (acc + snd x)%N r) as (l1 & e & l2 & E & A & B); [discriminate|lia|].
    exists (x :: l1), e, l2. rewrite E. split; [auto|]. split; [right|]; cbn [sumN]; [destruct A as [->|A]; cbn [sumN] in *; lia|lia].
Qed.

Lemma nth_error_mid {A} (l1 : list A) e l2 : nth_error (l1 ++ e :: l2) (length l1) = Some e.
Proof. rewrite nth_error_app2, Nat.sub_diag by lia. auto. Qed.

Lemma draw_edge_iff es d e : sumN snd es <> 0%N ->
  (draw_edge es d = Some e <-> exists l1 l2, es = l1 ++ e :: l2 /\ hits l1 e 0 (d mod sumN snd es)).
Proof.
  intro Z. unfold draw_edge. destruct (N.eqb_spec (sumN snd es) 0) as [Q|_]; [contradiction|].
  pose proof (N.mod_lt d (sumN snd es) Z) as Lt. set (r := (d mod sumN snd es)%N) in *. split.
  - intro E. destruct (lb_split es 0%N r) as (l1 & e' & l2 & Es & Hh); [intros ->; cbn in Z; auto|lia|].
    rewrite Es in E. rewrite (lb_hit l1 0%N e' l2 r Hh) in E. rewrite nth_error_mid in E. injection E as <-. eauto.
  - intros (l1 & l2 & Es & Hh). rewrite Es. rewrite (lb_hit l1 0%N e l2 r Hh). apply nth_error_mid.
Qed.

Lemma draw_edge_in es d e : draw_edge es d = Some e -> In e es.
Proof. unfold draw_edge. destruct (_ =? 0)%N; [discriminate|]. apply nth_error_In. Qed.

(** every entry of positive weight but the last is drawn by some number *)
Lemma draw_edge_ex l1 e l2 : (0 < snd e)%N -> (l2 <> [] /\ (0 < sumN snd l2)%N) -> exists d, draw_edge (l1 ++ e :: l2) d = Some e.
Proof.
  intros P [_ Q]. exists (sumN snd l1 + snd e)%N.
  assert (T : sumN snd (l1 ++ e :: l2) = (sumN snd l1 + snd e + sumN snd l2)%N) by (rewrite sumN_app; cbn [sumN]; lia).
  apply draw_edge_iff; [rewrite T; lia|]. exists l1, l2. split; [auto|]. rewrite T, N.mod_small by lia. split; [right|]; lia.
Qed.

Definition wedge (G : graph) (p : nat * nat) : Prop := exists w, In (snd p, w) (nth (fst p) G []).

Lemma flat_wedges_in G a b w : In (a, b, w) (flat_wedges G) <-> a < length G /\ In (b, w) (nth a G []).
Proof.
  unfold flat_wedges. rewrite in_flat_map. split.
  - intros (v & Hv & Q). apply in_seq in Hv. apply in_map_iff in Q. destruct Q as [[t x] [E I]]. injection E as <- <- <-. cbn. split; [lia|auto].
  - intros [La I]. exists a. split; [apply in_seq; lia|]. apply in_map_iff. exists (b, w). auto.
Qed.

Lemma wks_sample_ok G : undirected G ->
  forall draws need u ps u', inv (length G) ps u -> (forall p, In p ps -> wedge G p) -> wks_sample (flat_wedges G) need u draws = Some u' ->
  need <= cnt u -> exists ps', inv (length G) ps' u' /\ (forall p, In p ps' -> wedge G p) /\ cnt u' = cnt u - need.
Proof.
  intros [U _]. induction draws as [|d ds IH]; intros need u ps u' I W E L; destruct need as [|need]; cbn [wks_sample] in E.
  - injection E as <-. exists ps. split; [auto|split; [auto|lia]].
  - discriminate.
  - injection E as <-. exists ps. split; [auto|split; [auto|lia]].
  - destruct (draw_edge (flat_wedges G) d) as [[[a b] w]|] eqn:Ne; [|discriminate].
    apply draw_edge_in in Ne. apply flat_wedges_in in Ne. destruct Ne as [Ha Ib]. destruct (U a b w Ib) as [Hb _].
    destruct (union_inv _ ps u a b I Ha Hb) as (u1 & t & Eu & I1 & _). rewrite Eu in E.
    pose proof (union_cnt _ ps u a b u1 t I Ha Hb Eu) as C.
    assert (W1 : forall p, In p (ps ++ [(a, b)]) -> wedge G p).
    { intros p Hp. apply in_app_or in Hp. destruct Hp as [Hp|[<-|[]]]; [auto|]. exists w. auto. }
    destruct t.
    + destruct (IH need u1 _ u' I1 W1 E ltac:(lia)) as (ps' & I' & W' & C'). exists ps'. split; [auto|split; [auto|lia]].
    + destruct (IH (S need) u1 _ u' I1 W1 E ltac:(lia)) as (ps' & I' & W' & C'). exists ps'. split; [auto|split; [auto|lia]].
Qed.

(** some number draws an edge between u and v, one way or the other *)
Lemma wt_entry (G : graph) u v : wt G u v <> 0%N -> exists w, In (v, w) (nth u G []) /\ (0 < w)%N.
Proof.
  unfold wt. induction (nth u G []) as [|[t w] l IH]; cbn [filter sumN]; [congruence|]. intro Z.
  destruct (Nat.eqb_spec t v) as [->|Ne]; cbn [fst] in *.
  - destruct (N.eq_dec w 0) as [->|P].
    + destruct IH as (w & I & P); [rewrite Nat.eqb_refl in Z; cbn [sumN snd] in Z; lia|]. exists w. split; [right; auto|auto].
    + exists w. split; [left; auto|lia].
  - destruct IH as (w' & I & P); [destruct (Nat.eqb_spec t v); [congruence|auto]|]. exists w'. split; [right; auto|auto].
Qed.

Lemma in_two {A} (x y : A) l : In x l -> In y l -> x <> y -> exists l1 a l2, l = l1 ++ a :: l2 /\ ((a = x /\ In y l2) \/ (a = y /\ In x l2)).
Proof.
  induction l as [|z l IH]; [intros []|]. intros [->|Hx] [->|Hy] Ne.
  - congruence.
  - exists [], x, l. auto.
  - exists [], y, l. auto.
  - destruct (IH Hx Hy Ne) as (l1 & a & l2 & -> & Q). exists (z :: l1), a, l2. auto.
Qed.

Lemma draw_between G u v : undirected G -> u < length G -> v < length G -> u <> v -> wt G u v <> 0%N ->
  exists d a b w, draw_edge (flat_wedges G) d = Some (a, b, w) /\ ((a = u /\ b = v) \/ (a = v /\ b = u)).
Proof.
  intros [_ Sy] Hu Hv Ne Z. pose proof Z as Z'. rewrite (Sy u v Hu Hv) in Z'.
  apply wt_entry in Z. destruct Z as (w & I & P). apply wt_entry in Z'. destruct Z' as (w' & I' & P').
  destruct (in_two (u, v, w) (v, u, w') (flat_wedges G)) as (l1 & a & l2 & E & Q); [apply flat_wedges_in; auto|apply flat_wedges_in; auto|congruence|].
  assert (Pos : forall x, In x l2 -> (0 < snd x)%N -> l2 <> [] /\ (0 < sumN snd l2)%N).
  { intros x Hx Px. split; [intros ->; contradiction|]. pose proof (sumN_In_le snd l2 x Hx). lia. }
  rewrite E. destruct Q as [[-> J]|[-> J]].
  - destruct (draw_edge_ex l1 (u, v, w) l2 P (Pos _ J P')) as [d D]. exists d, u, v, w. auto.
  - destruct (draw_edge_ex l1 (v, u, w') l2 P' (Pos _ J P)) as [d D]. exists d, v, u, w'. auto.
Qed.

(** a draw that merges two sets exists as long as there are two *)
Lemma merge_ex G u ps : undirected G -> (forall S, proper (length G) S -> cutw (length G) (wt G) S <> 0%N) -> inv (length G) ps u -> 2 <= cnt u ->
  exists d a b w u', draw_edge (flat_wedges G) d = Some (a, b, w) /\ uf_union u a b = Some (u', true) /\ inv (length G) (ps ++ [(a, b)]) u' /\ cnt u' = cnt u - 1.
Proof.
  intros Ug Con I L. set (n := length G) in *.
  set (S := fun x => match uf_find u x, uf_find u 0 with Some (_, r), Some (_, s) => r =? s | _, _ => false end).
  assert (n0 : 0 < n).
  { destruct n eqn:Q; [|lia]. destruct (inv_classes _ _ _ I) as (reps & A & _ & B & _). destruct reps as [|x reps]; [cbn in A; lia|]. specialize (B x (or_introl eq_refl)). lia. }
  assert (HS : forall x, x < n -> (S x = true <-> conn ps x 0)).
  { intros x Hx. unfold S. destruct (find_inv _ _ _ x I Hx) as (u1 & r & -> & _ & _ & _ & R & _).
    destruct (find_inv _ _ _ 0 I n0) as (u2 & s & -> & _ & _ & _ & R' & _).
    rewrite (inv_conn _ _ _ I x 0 Hx n0), Nat.eqb_eq. split; [intros ->; eauto|]. intros (q & Q1 & Q2). rewrite (Root_fun _ _ _ _ R Q1), (Root_fun _ _ _ _ R' Q2). auto. }
  assert (P : proper n S).
  { split; [exists 0; split; [auto|apply HS; [auto|constructor]]|].
    destruct (inv_classes _ _ _ I) as (reps & A & B & C & D & _). destruct reps as [|x [|y reps]]; [cbn in A; lia|cbn in A; lia|].
    destruct (S x) eqn:Sx; [|exists x; split; [apply C; left; auto|auto]].
    destruct (S y) eqn:Sy; [|exists y; split; [apply C; right; left; auto|auto]].
    assert (Lx : x < n) by (apply C; left; auto). assert (Ly : y < n) by (apply C; right; left; auto).
    apply HS in Sx; [|auto]. apply HS in Sy; [|auto].
    assert (x = y) by (apply D; [left; auto|right; left; auto|eapply conn_trans; [exact Sx|apply conn_sym; exact Sy]]). subst y. apply NoDup_cons_iff in B. destruct B as [B _]. destruct B. left; auto. }
  assert (E : exists x y, x < n /\ y < n /\ S x = true /\ S y = false /\ wt G x y <> 0%N).
  { pose proof (Con S P) as Z. unfold cutw in Z.
    assert (BP : forall m (f : nat -> N), bsum m f <> 0%N -> exists i, i < m /\ f i <> 0%N).
    { induction m as [|m IH]; intros f Hf; [destruct Hf; reflexivity|]. rewrite bsum_S in Hf. destruct (N.eq_dec (f m) 0) as [Q|Q]; [|exists m; split; [lia|auto]]. destruct (IH f) as (i & X & Y); [lia|]. exists i. split; [lia|auto]. }
    apply BP in Z. destruct Z as (x & Hx & Z). apply BP in Z. destruct Z as (y & Hy & Z).
    exists x, y. destruct (S x), (S y); cbn in Z; try congruence. auto. }
  destruct E as (x & y & Hx & Hy & Sx & Sy & Z).
  assert (Ne : x <> y) by congruence.
  assert (Nc : ~ conn ps x y).
  { intro Q. apply HS in Sx; [|auto]. assert (S y = true) by (apply HS; [auto|]; eapply conn_trans; [apply conn_sym; exact Q|exact Sx]). congruence. }
  destruct (draw_between G x y Ug Hx Hy Ne Z) as (d & a & b & w & Dd & Q).
  assert (Hab : a < n /\ b < n /\ ~ conn ps a b).
  { destruct Q as [[-> ->]|[-> ->]]; split; auto; split; auto. intro K. apply Nc. apply conn_sym. auto. }
  destruct Hab as (Ha & Hb & Nab).
  destruct (union_inv _ ps u a b I Ha Hb) as (u' & t & Eu & I1 & T).
  assert (t = true) by (apply T; auto). subst t.
  exists d, a, b, w, u'. split; [auto|]. split; [auto|]. split; [auto|]. apply (union_cnt _ ps u a b u' true I Ha Hb Eu).
Qed.

Lemma wks_sample_ex G : undirected G -> (forall S, proper (length G) S -> cutw (length G) (wt G) S <> 0%N) ->
  forall need u ps, inv (length G) ps u -> need < cnt u -> exists draws u', wks_sample (flat_wedges G) need u draws = Some u'.
Proof.
  intros Ug Con. induction need as [|need IH]; intros u ps I L; [exists [], u; reflexivity|].
  destruct (merge_ex G u ps Ug Con I) as (d & a & b & w & u1 & D & Eu & I1 & C); [lia|].
  destruct (IH u1 _ I1) as (ds & u' & E); [lia|]. exists (d :: ds), u'. cbn [wks_sample]. rewrite D, Eu. exact E.
Qed.

(** … also after any draws *)
Lemma wks_sample_go_on G : undirected G -> (forall S, proper (length G) S -> cutw (length G) (wt G) S <> 0%N) ->
  forall pre need u ps, inv (length G) ps u -> need < cnt u -> exists more u', wks_sample (flat_wedges G) need u (pre ++ more) = Some u'.
Proof.
  intros Ug Con. induction pre as [|d pre IH]; intros need u ps I L; [eapply wks_sample_ex; eauto|].
  destruct need as [|need]; [exists [], u; reflexivity|]. cbn [app wks_sample].
  destruct (merge_ex G u ps Ug Con I) as (d0 & a0 & b0 & w0 & u0 & D0 & _); [lia|].
  assert (Z : sumN snd (flat_wedges G) <> 0%N).
  { intro Q. unfold draw_edge in D0. rewrite Q in D0. discriminate D0. }
  destruct (draw_edge (flat_wedges G) d) as [[[a b] w]|] eqn:D.
  - pose proof (draw_edge_in _ _ _ D) as J. apply flat_wedges_in in J. destruct J as [Ha J]. destruct (proj1 Ug a b w J) as [Hb _].
    destruct (union_inv _ ps u a b I Ha Hb) as (u1 & t & Eu & I1 & _). rewrite Eu.
    pose proof (union_cnt _ ps u a b u1 t I Ha Hb Eu) as C. destruct t; eapply IH; eauto; lia.
  - exfalso. pose proof (N.mod_lt d _ Z) as Lt.
    destruct (lb_split (flat_wedges G) 0%N (d mod sumN snd (flat_wedges G))) as (l1 & e & l2 & E & Hh); [intro Q; rewrite Q in Z; apply Z; reflexivity|lia|].
    assert (X : draw_edge (flat_wedges G) d = Some e) by (apply draw_edge_iff; eauto). congruence.
Qed.
