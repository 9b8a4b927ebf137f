(* P_Artic4.v - contracting a set that only one vertex separates from the rest is safe; exactness of the points found. *)
From Verif Require Import SpecRel SpecMulti SpecMutable SpecArtic P_UnionFind P_Cut P_Mutable P_MutableIO P_PRTests P_Multi P_Kernel P_Kernel3.
From Verif Require Export P_Artic3.

Lemma wt_in_row rows v t : wt (adj rows) v t <> 0%N -> In t (ap_nbrs rows v).
Proof.
  unfold wt. rewrite adj_nth. intro H. destruct (filter _ _) as [|[t' w'] l] eqn:E; [exfalso; apply H; reflexivity|].
  pose proof (in_eq (t', w') l) as I. rewrite <- E in I.
  apply filter_In in I as [I X]. cbn in X. apply Nat.eqb_eq in X. subst t'. apply in_map_iff in I as ([[a b] r] & E' & I). cbn in E'. injection E' as -> ->.
  unfold ap_nbrs. apply (in_map (fun h : half => fst (fst h))) in I. exact I.
Qed.

Lemma nbrs_valid rows : valid_rows rows -> (forall v t, In t (ap_nbrs rows v) -> v < length rows /\ t < length rows /\ t <> v) /\ (forall v t, In t (ap_nbrs rows v) -> In v (ap_nbrs rows t)).
Proof.
  intro V. assert (X : forall v t, In t (ap_nbrs rows v) -> exists e w r, nth_error (nth v rows []) e = Some (t, w, r)).
  { unfold ap_nbrs. intros v t H. apply in_map_iff in H. destruct H as ([[t' w] r] & <- & H). apply In_nth_error in H. destruct H as [e H]. exists e, w, r. exact H. }
  split; intros v t H; destruct (X v t H) as (e & w & r & He); destruct (V v e t w r He) as (A & B & C).
  - split; [|auto]. destruct (Nat.lt_ge_cases v (length rows)) as [|G]; [auto|]. rewrite (nth_overflow rows [] G) in He. destruct e; discriminate He.
  - apply nth_error_In in C. unfold ap_nbrs. apply (in_map (fun h : half => fst (fst h))) in C. exact C.
Qed.

Section Safe.
Context (R : list (list half)) (VR : valid_rows R) (ts : list nat).
Let n := length R.
Let W := wt (adj R).
Notation nb := (ap_nbrs R).
Notation E := (fun a b => In b (nb a)).

Definition pull (g : grp) (f : nat -> nat) (x : nat) : nat := if g_in g x then f (g_v g) else f x.

Lemma pull_edge g f a b : grp_ok R ts g -> In b (nb a) -> f a = f b -> pull g f a = pull g f b.
Proof.
  intros (_ & GV & _ & GC) H F. destruct (nbrs_valid R VR) as [_ NS]. unfold pull.
  destruct (g_in g a) eqn:A, (g_in g b) eqn:B; auto.
  - destruct (Nat.eq_dec b (g_v g)) as [->|N]; [auto|]. rewrite (GC a b A H N) in B. discriminate B.
  - destruct (Nat.eq_dec a (g_v g)) as [->|N]; [auto|]. rewrite (GC b a B (NS _ _ H) N) in A. discriminate A.
Qed.

Lemma pull_all gs : (forall g, In g gs -> grp_ok R ts g) -> forall f, separates n ts f -> exists f', separates n ts f' /\ (mtcost n W f' <= mtcost n W f)%N /\
  forall g a b, In g gs -> inside g a -> inside g b -> In b (nb a) -> f' a = f' b.
Proof.
  induction gs as [|g gs IH]; intros GO f S; [exists f; split; [auto|]; split; [lia|intros ? ? ? []]|].
  destruct (IH (fun g' H => GO g' (or_intror H)) f S) as (f1 & S1 & C1 & K1). pose proof (GO g (or_introl eq_refl)) as G. pose proof G as (GV & G0 & GT & GC).
  exists (pull g f1). split; [|split].
  - destruct S1 as [A B]. split.
    + intros v Hv. unfold pull. destruct (g_in g v); apply A; auto.
    + intros i Hi. unfold pull. destruct (g_in g (nth i ts 0)) eqn:Q; [|auto]. exfalso. apply (GT _ Q). apply nth_In. auto.
  - refine (N.le_trans _ _ _ _ C1). apply mtcost_le. intros u v Hu Hv Z F. apply pull_edge; auto. apply wt_in_row. exact Z.
  - intros g' a b [<-|Hg] Ia Ib H.
    + unfold pull. destruct Ia as [->|Ia], Ib as [->|Ib]; rewrite ?G0, ?Ia, ?Ib; auto.
    + apply pull_edge; auto. apply (K1 g'); auto.
Qed.

Lemma explained_safe gs ps : (forall g, In g gs -> grp_ok R ts g) -> (forall p, In p ps -> explained R gs p) -> safe_pairs n W ts (conn ps).
Proof.
  intros GO GE f S. destruct (pull_all gs GO f S) as (f' & S' & C & K). exists f'. split; [auto|]. split; [auto|]. intros a b _ _ H.
  revert a b H. refine (conn_in_relation ps (fun a b => f' a = f' b) _ _ _ _); try congruence.
  intros a b Hp. destruct (GE _ Hp) as (g & Hg & J). cbn [fst snd] in J. clear - K Hg J. induction J as [u Hu|u v w Hu Huv J IH]; [auto|].
  transitivity (f' v); [|auto]. apply (K g); auto. apply (joined_ok _ _ _ _ J).
Qed.
End Safe.

Theorem ap_rule_ok G ts : mvalid G -> (forall t, In t ts -> t < m_n G) ->
  exists u ps, ap_rule G ts = Some u /\ inv (m_n G) ps u /\ safe_pairs (m_n G) (wt (adj (m_rows G))) ts (conn ps) /\ edges_only (m_rows G) ps.
Proof.
  intros [VR _] HT. destruct (nbrs_valid _ VR) as [NR NS]. unfold ap_rule. destruct (find_all_ok (m_rows G) NR NS) as (s & -> & I & ALL).
  assert (U0 : exists u ps, Some (uf_init (m_n G)) = Some u /\ inv (m_n G) ps u /\ safe_pairs (m_n G) (wt (adj (m_rows G))) ts (conn ps) /\ edges_only (m_rows G) ps).
  { exists (uf_init (m_n G)), []. split; [auto|]. split; [apply inv_init|]. split; [|intros ? ? []]. apply (explained_safe (m_rows G) VR ts []); [intros ? []|intros ? []]. }
  destruct (0 <? length (a_aps s)); [|exact U0]. unfold terminals_on_both_sides.
  destruct (sides_ok (m_rows G) NR NS s I ALL ts HT (a_aps s) [] [] (uf_init (length (m_rows G))) false) as (r & ps & gs & -> & EO & GO & GE & UR).
  - intros v Hv. apply (i_aps _ _ _ I) in Hv. apply (i_rng _ _ _ I), Hv.
  - apply inv_init.
  - intros ? ? [].
  - intros ? [].
  - intros ? [].
  - auto.
  - destruct r as [u|]; [|exact U0]. exists u, ps. split; [auto|]. split; [exact UR|]. split; [|exact EO]. apply (explained_safe (m_rows G) VR ts gs); auto.
Qed.

(** ** exactness *)
Section Exact.
Context (R : list (list half)).
Let n := length R.
Notation nb := (ap_nbrs R).
Notation E := (fun a b => In b (nb a)).
Hypothesis NR : forall v t, In t (nb v) -> v < n /\ t < n /\ t <> v.
Hypothesis NS : forall v t, In t (nb v) -> In v (nb t).
Context (s : apst) (I : Inv R s []) (ALL : forall y, y < n -> a_vis s y = true).
Notation par := (a_par s).
Notation disc := (a_disc s).
Notation low := (a_low s).

Lemma joined_in ok a b : joined E ok a b -> a < n -> b < n.
Proof. intros J. induction J as [u Hu|u v w Hu Huv J IH]; [auto|]. intros _. apply IH. apply (NR _ _ Huv). Qed.

(* the tree path *)
Lemma anc_joined a x (ok : nat -> Prop) : x < n -> anc par a x -> (forall y, anc par a y -> anc par y x -> ok y) -> joined E ok x a.
Proof.
  intros Hx A. induction A as [|x p Ep N A IH]; intro K; [constructor; apply K; constructor|].
  destruct (par_facts R s I ALL x Hx) as (q & Eq & Hq & Q). rewrite Ep in Eq. injection Eq as <-. destruct Q as [Q|[Q _]]; [congruence|].
  apply (joined_step E ok x p a); [apply K; [apply (anc_up par a x p); auto|constructor]|apply NS; auto|]. apply IH; [auto|]. intros y A1 A2. apply K; [auto|]. apply (anc_up par y x p); auto.
Qed.

Lemma root_unique r r' x : par r = Some r -> par r' = Some r' -> anc par r x -> anc par r' x -> r = r'.
Proof.
  intros P P' A A'. destruct (anc_linear par r r' x A A') as [H|H]; [exact (anc_root par r r' P' H)|symmetry; exact (anc_root par r' r P H)].
Qed.

Lemma edge_root r x y : x < n -> y < n -> par r = Some r -> anc par r x -> In y (nb x) -> anc par r y.
Proof.
  intros Hx Hy P A H. destruct (i_edge _ _ _ I x y (ALL x Hx) (ALL y Hy) H) as [B|B]; [apply (anc_trans par r x y); auto|].
  destruct (anc_linear par r y x A B) as [C|C]; [auto|]. rewrite (anc_root par y r P C). constructor.
Qed.

Lemma joined_root ok x y r : joined E ok x y -> x < n -> par r = Some r -> anc par r x -> anc par r y.
Proof.
  intros J. induction J as [u Hu|u v w Hu Huv J IH]; intros Hx P A; [auto|]. destruct (NR _ _ Huv) as (_ & Hv & _). apply IH; auto. apply (edge_root r u v); auto.
Qed.


(* where the lowest number comes from *)
Lemma low_hit : forall k c, c < n -> par c <> Some c -> n - N.to_nat (disc c) < k -> (low c < disc c)%N ->
  exists y z, y < n /\ z < n /\ anc par c y /\ In z (nb y) /\ disc z = low c.
Proof.
  induction k as [|k IH]; intros c Hc Nr Hk L; [lia|]. destruct (i_fin _ _ _ I c (ALL c Hc) (fun H => H)) as [_ LL]. specialize (LL Nr).
  destruct (ls_hit _ _ _ LL) as [H|[(t & Ht & Pt & H)|(t & Ht & _ & _ & H)]]; [lia| |].
  - destruct (NR _ _ Ht) as (_ & Htn & Ntc). destruct (par_facts R s I ALL t Htn) as (q & Eq & _ & Q). rewrite Pt in Eq. injection Eq as <-. destruct Q as [Q|[_ Q]]; [congruence|].
    pose proof (i_disc _ _ _ I t (ALL t Htn)) as D. pose proof (step_le R NR NS s I ALL) as SL. fold n in SL.
    destruct (IH t Htn) as (y & z & Hy & Hz & A & Z & Dz); [congruence|lia|lia|]. exists y, z. split; [auto|]. split; [auto|]. split; [|split; [auto|lia]].
    apply (anc_trans par c t y); [|auto]. apply (anc_up par c t c); [auto|congruence|constructor].
  - exists c, t. split; [auto|]. split; [apply (NR _ _ Ht)|]. split; [constructor|auto].
Qed.

Lemma anc_child x : forall k y, N.to_nat (disc y) < k -> y < n -> y <> x -> ~ anc par x y \/ exists c, par c = Some x /\ c <> x /\ anc par c y.
Proof.
  induction k as [|k IH]; intros y Hk Hy Ny; [lia|]. destruct (par_facts R s I ALL y Hy) as (p & Ep & Hp & Q).
  destruct (Nat.eq_dec p y) as [->|Npy]; [left; intro A; apply Ny; symmetry; exact (anc_root par x y Ep A)|]. destruct Q as [Q|[_ Q]]; [contradiction|].
  destruct (Nat.eq_dec p x) as [->|Npx]; [right; exists y; split; [auto|]; split; [auto|constructor]|].
  destruct (IH p) as [A|(c & Pc & Nc & A)]; [lia|auto|auto| |].
  - left. intro B. inversion B as [X|? q Eq Nq B']; [congruence|]. rewrite Ep in Eq. injection Eq as <-. contradiction.
  - right. exists c. split; [auto|]. split; [auto|]. apply (anc_up par c y p); auto.
Qed.

(** the points found: exactly the articulation points that are not the first vertex of their component *)
Theorem aps_exact x : In x (a_aps s) <-> articulation E x /\ exists m, m < x /\ joined E (fun _ => True) m x.
Proof.
  split.
  - intro H. apply (i_aps _ _ _ I) in H. destruct H as (Vx & _ & Nr & c & Hc & Pc & L). pose proof (i_rng _ _ _ I x Vx) as Hx.
    destruct (par_facts R s I ALL x Hx) as (p & Ep & Hp & Q). assert (Npx : p <> x) by congruence. destruct Q as [Q|[Q1 Q2]]; [contradiction|]. destruct (NR _ _ Hc) as (_ & Hcn & Ncx). split.
    + exists c, p. split; [auto|]. split; [auto|]. split.
      * apply (joined_step E _ c x p); [auto|apply NS; auto|]. apply (joined_step E _ x p p); [auto|apply NS; auto|constructor; auto].
      * intro J. assert (RP : right_of s x p).
        { assert (RC : right_of s x c) by (exists c; split; [auto|]; split; [auto|]; split; [auto|constructor]). clear - J RC NR NS I ALL.
          induction J as [u Hu|u v w Hu Huv J IH]; [auto|]. apply IH. apply (right_closed R NR NS s I ALL x u v); auto. apply (joined_ok _ _ _ _ J). }
        pose proof (right_lt R NR NS s I ALL x p Hp RP). lia.
    + destruct (i_root _ _ _ I x Vx) as (r & A & Pr & Lr). exists r. split.
      * destruct (Nat.eq_dec r x) as [->|]; [contradiction|lia].
      * apply (joined_sym E); [auto|]. apply anc_joined; auto.
  - intros [(u & w & Nu & Nw & JT & NJ) (m & Lm & Jm)]. destruct (in_dec Nat.eq_dec x (a_aps s)) as [|NA]; [auto|]. exfalso. apply NJ.
    (* everything is in range *)
    assert (RNG : forall a b ok, joined E ok a b -> a = b \/ (a < n /\ b < n)).
    { intros a b ok J. destruct J as [|a v b Ha Hav J]; [auto|]. right. destruct (NR _ _ Hav) as (A & B & _). split; [auto|]. apply (joined_in ok v b); auto. }
    destruct (RNG _ _ _ JT) as [->|[Hu Hw]]; [constructor; auto|].
    destruct (RNG _ _ _ Jm) as [Q|[Hm Hx]]; [lia|].
    (* x is not a root *)
    destruct (i_root _ _ _ I x (ALL x Hx)) as (r & Arx & Pr & Lr). destruct (i_root _ _ _ I m (ALL m Hm)) as (rm & Arm & Prm & Lrm).
    assert (rm = r) as -> by (apply (root_unique rm r x Prm Pr); [apply (joined_root _ m x rm Jm); auto|auto]).
    assert (Nrx : r <> x) by lia. assert (Nr : par x <> Some x). { intro P. apply Nrx. exact (anc_root par r x P Arx). }
    assert (LOW : forall c, c < n -> par c = Some x -> c <> x -> (low c < disc x)%N).
    { intros c Hc Pc Ncx. destruct (N.lt_ge_cases (low c) (disc x)) as [|G]; [auto|]. exfalso. apply NA. apply (i_aps _ _ _ I). split; [apply ALL; auto|]. split; [auto|].
      split; [auto|]. exists c. split; [|auto]. destruct (par_facts R s I ALL c Hc) as (q & Eq & _ & Q). rewrite Pc in Eq. injection Eq as <-. destruct Q as [Q|[Q _]]; [congruence|auto]. }
    assert (UP : forall y q, y < n -> par q = Some q -> anc par q y -> ~ anc par x y -> joined E (fun z => z <> x) y q).
    { intros y q Hy Pq A N. apply anc_joined; auto. intros z _ B ->. contradiction. }
    assert (ROOT : forall y q, y < n -> y <> x -> par q = Some q -> anc par q y -> joined E (fun z => z <> x) y q).
    { intros y q Hy Ny Pq A.
      destruct (anc_child x (S (N.to_nat (disc y))) y ltac:(lia) Hy Ny) as [NX|(c & Pc & Ncx & Ac)]; [apply UP; auto|].
      destruct (anc_disc R NR NS s I ALL c y Hy Ac) as [Hc _]. pose proof (LOW c Hc Pc Ncx) as Lc.
      destruct (par_facts R s I ALL c Hc) as (q' & Eq & _ & Q). rewrite Pc in Eq. injection Eq as <-. destruct Q as [Q|[_ Dc]]; [congruence|].
      assert (Cx : forall z, anc par c z -> z <> x). { intros z Az ->. destruct (anc_disc R NR NS s I ALL c x Hx Az) as [_ X]. lia. }
      destruct (low_hit (S n) c Hc) as (y' & z & Hy' & Hz & Ac' & Hz' & Dz); [congruence|lia|lia|].
      assert (J1 : joined E (fun z => z <> x) y c) by (apply anc_joined; auto).
      assert (J2 : joined E (fun z => z <> x) y' c) by (apply anc_joined; auto).
      assert (Nzx : z <> x) by (intros ->; lia).
      assert (NAz : ~ anc par x z). { intro B. destruct (anc_disc R NR NS s I ALL x z Hz B) as [_ X]. lia. }
      assert (Pqc : anc par q c). { destruct (anc_linear par q c y A Ac) as [B|B]; [auto|]. exfalso. pose proof (anc_root par c q Pq B). congruence. }
      assert (Aqz : anc par q z) by (apply (edge_root q y' z); auto; apply (anc_trans par q c y'); auto).
      apply (joined_trans E _ y c q); [auto|]. apply (joined_trans E _ c y' q); [apply (joined_sym E); auto|].
      apply (joined_step E _ y' z q); [auto|auto|]. apply UP; auto. }
    destruct (i_root _ _ _ I u (ALL u Hu)) as (ru & Aru & Pru & _).
    assert (Arw : anc par ru w) by (apply (joined_root _ u w ru JT); auto).
    apply (joined_trans E _ u ru w); [apply ROOT; auto|]. apply (joined_sym E); [auto|]. apply ROOT; auto.
Qed.
End Exact.
