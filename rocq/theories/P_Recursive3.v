(* P_Recursive3.v - proofs about mergeCactusWithComponent: the graph of a small component. *)
From Verif Require Import SpecCut SpecDyn SpecMutable M_Mutable P_Mutable P_Cut P_LocalSearch P_LocalSearch2 P_AllMincuts P_MutableIO M_StCactus M_Recursive P_StCactus7 P_StCactus8 P_StCactus9 P_ContractStd2 P_Recursive2.

(** ** placing vertices *)
Lemma place_ok : forall (L : list (nat * nat)) M, (forall p x, In (p, x) L -> p < length (m_cont M) /\ x < length (m_pos M)) -> (forall p q x, In (p, x) L -> In (q, x) L -> p = q) ->
  exists M', fold_opt (fun M e => match add_cont M (fst e) (snd e) with Some M1 => set_pos M1 (snd e) (fst e) | None => None end) L M = Some M' /\ same_core M M' /\ m_part M' = m_part M /\ m_cut M' = m_cut M /\
    length (m_cont M') = length (m_cont M) /\ length (m_pos M') = length (m_pos M) /\
    (forall p, nth p (m_cont M') [] = nth p (m_cont M) [] ++ map snd (filter (fun e => fst e =? p) L)) /\
    (forall p x, In (p, x) L -> nth x (m_pos M') 0 = p) /\ (forall x, ~ In x (map snd L) -> nth x (m_pos M') 0 = nth x (m_pos M) 0).
Proof.
  induction L as [|[p x] L IH]; intros M B U; cbn [fold_opt].
  - exists M. split; [reflexivity|]. split; [apply core_refl|]. do 4 (split; [auto|]). split; [intro q; cbn; rewrite app_nil_r; reflexivity|]. split; [intros ? ? []|auto].
  - cbn [fst snd]. destruct (B p x (or_introl eq_refl)) as [Hp Hx]. unfold add_cont. set (l := nth p (m_cont M) [] ++ [x]).
    assert (X : exists M1, set_cont M p l = Some M1 /\ same_core M M1 /\ m_part M1 = m_part M /\ m_cut M1 = m_cut M /\ m_pos M1 = m_pos M /\ m_cont M1 = upd (m_cont M) p l).
    { unfold set_cont. destruct (Nat.ltb_spec p (length (m_cont M))); [|lia]. eexists. split; [reflexivity|]. split; [repeat split|]. auto. }
    destruct X as (M1 & E1 & S1 & A1 & B1 & P1 & C1). rewrite E1.
    assert (X : exists M2, set_pos M1 x p = Some M2 /\ same_core M1 M2 /\ m_part M2 = m_part M1 /\ m_cut M2 = m_cut M1 /\ m_pos M2 = upd (m_pos M1) x p /\ m_cont M2 = m_cont M1).
    { unfold set_pos. destruct (Nat.ltb_spec x (length (m_pos M1))) as [|Q]; [|rewrite P1 in Q; lia]. eexists. split; [reflexivity|]. split; [repeat split|]. auto. }
    destruct X as (M2 & E2 & S2 & A2 & B2 & P2 & C2). rewrite E2.
    destruct (IH M2) as (M' & E' & S' & A' & B' & LC & LP & Cn & Ps & Pn).
    { intros q y I. rewrite C2, P2, C1, P1, !upd_length. apply B. right. auto. } { intros; eapply U; right; eauto. }
    exists M'. split; [exact E'|]. split; [eapply core_trans; [exact S1|eapply core_trans; eauto]|]. split; [congruence|]. split; [congruence|].
    split; [rewrite LC, C2, C1, upd_length; auto|]. split; [rewrite LP, P2, P1, upd_length; auto|]. split; [|split].
    + intro q. rewrite Cn, C2, C1, nth_upd. destruct (Nat.ltb_spec p (length (m_cont M))); [|lia]. rewrite andb_true_r. cbn [filter map fst]. rewrite (Nat.eqb_sym p q). destruct (Nat.eqb_spec q p) as [->|]; [|reflexivity].
      cbn [map snd]. unfold l. rewrite <- app_assoc. reflexivity.
    + intros q y [Q|I]; [|eapply Ps; eauto]. injection Q as <- <-. destruct (in_dec Nat.eq_dec x (map snd L)) as [I|I].
      * apply in_map_iff in I as ([q y] & Ey & I). cbn in Ey. subst y. rewrite (Ps q x I). symmetry. eapply U; [left; reflexivity|right; eauto].
      * rewrite Pn by auto. rewrite P2, P1, nth_upd, Nat.eqb_refl. destruct (Nat.ltb_spec x (length (m_pos M))); [reflexivity|lia].
    + intros y Ny. cbn [map snd] in Ny. rewrite Pn by (intro I; apply Ny; right; auto). rewrite P2, P1, nth_upd. destruct (Nat.eqb_spec y x) as [->|]; [exfalso; apply Ny; left; auto|reflexivity].
Qed.

(** ** adding edges *)
Lemma new_edge_rest M a b w M' : m_new_edge M a b w = Some M' -> m_part M' = m_part M /\ m_cut M' = m_cut M /\ forall v t w' r, In (t, w', r) (nth v (m_rows M') []) -> In (t, w', r) (nth v (m_rows M) []) \/ w' = w.
Proof.
  intro E. unfold m_new_edge in E. destruct (a <? b); [destruct (b <? m_n M); [|discriminate E]|]; injection E as <-; cbn [m_part m_cut m_rows]; do 2 (split; [reflexivity|]); [|auto].
  intros v t w' r I. apply in_push in I as [I|I]; [injection I; auto|]. apply in_push in I as [I|I]; [injection I; auto|auto].
Qed.
Definition ends (e : nat * nat * N) : nat * nat := fst e.
Lemma edges_fold : forall es M, mvalid M -> (forall a b w, In (a, b, w) es -> a < b /\ b < m_n M /\ w <> 0%N) -> no_zero (m_rows M) ->
  exists M', fold_opt (fun M e => m_new_edge M (fst (fst e)) (snd (fst e)) (snd e)) es M = Some M' /\ mvalid M' /\ m_n M' = m_n M /\ m_pos M' = m_pos M /\ m_cont M' = m_cont M /\ m_orig M' = m_orig M /\ m_part M' = m_part M /\ m_cut M' = m_cut M /\
    no_zero (m_rows M') /\
    (forall a b, a < b -> b < m_n M -> wt (adj (m_rows M')) a b = (wt (adj (m_rows M)) a b + sumN (fun e => if Nat.eqb (fst (fst e)) a && Nat.eqb (snd (fst e)) b then snd e else 0%N) es)%N) /\
    (forall x, tgts (nth x (m_rows M') []) = tgts (nth x (m_rows M) []) ++ flat_map (near x) (map ends es)).
Proof.
  induction es as [|[[a b] w] es IH]; intros M V B NZ; cbn [fold_opt fst snd].
  - exists M. do 9 (split; [auto|]). split; [intros; cbn [sumN]; lia|]. intro x. cbn. rewrite app_nil_r. reflexivity.
  - destruct (B a b w (or_introl eq_refl)) as (Hab & Hb & Hw). destruct (new_edge_more M a b w V Hab Hb) as (M1 & E1 & V1 & N1 & W1 & P1 & C1 & O1 & T1). rewrite E1.
    destruct (new_edge_rest M a b w M1 E1) as (A1 & B1 & Z1).
    destruct (IH M1 V1) as (M' & E' & V' & N' & P' & C' & O' & A' & B' & NZ' & W' & T'). { intros a' b' w' I. rewrite N1. apply B. right. auto. }
    { intros v t w' r I. destruct (Z1 v t w' r I) as [I1| ->]; [eapply NZ; eauto|auto]. }
    exists M'. split; [exact E'|]. split; [auto|]. do 6 (split; [congruence|]). split; [auto|]. split.
    + intros x y Hx Hy. rewrite W' by lia. specialize (W1 x y ltac:(lia) Hy). cbn [sumN fst snd]. rewrite (Nat.eqb_sym a x), (Nat.eqb_sym b y).
      destruct ((x =? b) && (y =? a)) eqn:Q; [apply andb_true_iff in Q as [Q1 Q2]; apply Nat.eqb_eq in Q1, Q2; lia|]. rewrite orb_false_r in W1. destruct ((x =? a) && (y =? b)); lia.
    + intro x. rewrite T', T1, <- app_assoc. reflexivity.
Qed.
Lemma near_nodup x : forall ps, (forall a b, In (a, b) ps -> a < b) -> NoDup ps -> NoDup (flat_map (near x) ps).
Proof.
  induction ps as [|[a b] ps IH]; intros B ND; cbn [flat_map]; [constructor|]. inversion ND as [|? ? N1 N2]; subst. specialize (IH (fun a b I => B a b (or_intror I)) N2).
  assert (Hab : a < b) by (apply B; left; auto). unfold near at 1. cbn [fst snd].
  assert (K : forall y, In y (flat_map (near x) ps) -> In (x, y) ps \/ In (y, x) ps).
  { intros y I. apply in_flat_map in I as ([a' b'] & I & J). unfold near in J. cbn [fst snd] in J. destruct (Nat.eqb_spec a' x) as [->|]; [destruct J as [<-|[]]; auto|]. destruct (Nat.eqb_spec b' x) as [->|]; [destruct J as [<-|[]]; auto|destruct J]. }
  destruct (Nat.eqb_spec a x) as [->|]; [|destruct (Nat.eqb_spec b x) as [->|]; [|exact IH]]; cbn [app]; constructor; auto; intro I; apply K in I as [I|I]; auto; apply B in I || idtac; try (pose proof (B _ _ (or_intror I)); lia).
Qed.

(** ** numbering *)
Lemma numbers_ok c bs : forall v k, length (cp_numbers v c bs k) = length v /\
  (forall u, u < length v -> nth u v 0 = c -> k <= nth u (cp_numbers v c bs k) 0 < k + length (filter (Nat.eqb c) v)) /\
  (forall u, u < length v -> nth u v 0 <> c -> nth u (cp_numbers v c bs k) 0 = bs) /\
  (forall u u', u < length v -> u' < length v -> nth u v 0 = c -> nth u' v 0 = c -> nth u (cp_numbers v c bs k) 0 = nth u' (cp_numbers v c bs k) 0 -> u = u') /\
  (forall p, k <= p < k + length (filter (Nat.eqb c) v) -> exists u, u < length v /\ nth u v 0 = c /\ nth u (cp_numbers v c bs k) 0 = p).
Proof.
  induction v as [|y v IH]; intro k.
  - split; [reflexivity|]. split; [intros u H; cbn in H; lia|]. split; [intros u H; cbn in H; lia|]. split; [intros u u' H; cbn in H; lia|]. intros p H. cbn in H. lia.
  - cbn [cp_numbers filter]. rewrite (Nat.eqb_sym c y). destruct (Nat.eqb_spec y c) as [Ey|Ny].
    + destruct (IH (S k)) as (L & A & B & I & O). cbn [length]. split; [lia|]. split; [|split; [|split]].
      * intros [|u] Hu E; cbn [nth] in *; [lia|]. specialize (A u ltac:(lia) E). lia.
      * intros [|u] Hu E; cbn [nth] in *; [congruence|]. apply B; auto; lia.
      * intros [|u] [|u'] Hu Hu' E E' Q; cbn [nth] in *; auto.
        -- specialize (A u' ltac:(lia) E'). lia.
        -- specialize (A u ltac:(lia) E). lia.
        -- f_equal. apply I; auto; lia.
      * intros p Hp. destruct (Nat.eq_dec p k) as [->|]; [exists 0; cbn [nth]; split; [lia|auto]|]. destruct (O p ltac:(lia)) as (u & Hu & E & Q). exists (S u). cbn [nth]. split; [lia|auto].
    + destruct (IH k) as (L & A & B & I & O). cbn [length]. split; [lia|]. split; [|split; [|split]].
      * intros [|u] Hu E; cbn [nth] in *; [congruence|]. specialize (A u ltac:(lia) E). lia.
      * intros [|u] Hu E; cbn [nth] in *; [auto|]. apply B; auto; lia.
      * intros [|u] [|u'] Hu Hu' E E' Q; cbn [nth] in *; try congruence. f_equal. apply I; auto; lia.
      * intros p Hp. destruct (O p ltac:(lia)) as (u & Hu & E & Q). exists (S u). cbn [nth]. split; [lia|auto].
Qed.

Lemma fold_app {A B} (f : A -> B -> option A) : forall l1 l2 a, fold_opt f (l1 ++ l2) a = match fold_opt f l1 a with Some b => fold_opt f l2 b | None => None end.
Proof. induction l1 as [|x l1 IH]; intros l2 a; [reflexivity|]. cbn [app fold_opt]. destruct (f a x); auto. Qed.
Lemma fold_flat {S A B} (f : S -> B -> option S) (F : S -> A -> option S) (g : A -> list B) : (forall s a, F s a = fold_opt f (g a) s) -> forall l s, fold_opt F l s = fold_opt f (flat_map g l) s.
Proof. intros H. induction l as [|x l IH]; intro s; [reflexivity|]. cbn [flat_map fold_opt]. rewrite fold_app, H. destruct (fold_opt f (g x) s); auto. Qed.
Lemma nodup_concat {A B} (g : A -> list B) : forall l, NoDup l -> (forall a, In a l -> NoDup (g a)) -> (forall a b x, In a l -> In b l -> In x (g a) -> In x (g b) -> a = b) -> NoDup (flat_map g l).
Proof.
  induction l as [|a l IH]; intros N1 N2 D; [constructor|]. inversion N1; subst. cbn [flat_map]. assert (X : NoDup (flat_map g l)). { apply IH; auto; intros; [apply N2; right; auto|eapply D; eauto; right; auto]. }
  assert (Y : NoDup (g a)) by (apply N2; left; auto). assert (Z : forall x, In x (g a) -> ~ In x (flat_map g l)). { intros x I J. apply in_flat_map in J as (b & Ib & J). assert (a = b) by (eapply D; eauto; [left; auto|right; auto]). congruence. }
  revert Y Z. generalize (g a). induction l0 as [|y l0 IH0]; intros Y Z; [exact X|]. inversion Y; subst. cbn [app]. constructor.
  - intro I. apply in_app_or in I as [I|I]; [contradiction|]. exact (Z y (or_introl eq_refl) I).
  - apply IH0; auto. intros; apply Z; right; auto.
Qed.
Lemma tgts_inj row (a b : half) : NoDup (tgts row) -> In a row -> In b row -> fst (fst a) = fst (fst b) -> a = b.
Proof.
  induction row as [|h row IH]; intros ND Ia Ib E; [destruct Ia|]. cbn [tgts map] in ND. inversion ND as [|? ? N1 N2]; subst.
  destruct Ia as [<-|Ia], Ib as [<-|Ib]; auto; exfalso; apply N1; apply in_map_iff; [exists b|exists a]; auto.
Qed.

Lemma outer_sum num bs row : cp_outer num bs row = sumN (fun h : half => if nth (fst (fst h)) num 0 =? bs then snd (fst h) else 0%N) row.
Proof.
  unfold cp_outer. assert (K : forall l d, fold_left (fun d (h : half) => if nth (fst (fst h)) num 0 =? bs then (d + snd (fst h))%N else d) l d = (d + sumN (fun h : half => if Nat.eqb (nth (fst (fst h)) num 0%nat) bs then snd (fst h) else 0%N) l)%N).
  { induction l as [|h l IH]; intro d; cbn [fold_left sumN]; [lia|]. rewrite IH. destruct (nth (fst (fst h)) num 0 =? bs); lia. }
  rewrite K. lia.
Qed.

(** the edges that vertex u adds *)
Definition es_inner (num : list nat) (bs u : nat) (h : half) : list (nat * nat * N) :=
  let t := nth (fst (fst h)) num 0 in if t =? bs then [] else if nth u num 0 <? t then [(nth u num 0, t, snd (fst h))] else [].
Definition es_of (G : mg) (num : list nat) (bs u : nat) : list (nat * nat * N) :=
  if nth u num 0 =? bs then []
  else flat_map (es_inner num bs u) (nth u (m_rows G) []) ++ (if (0 <? cp_outer num bs (nth u (m_rows G) []))%N then [(nth u num 0, bs, cp_outer num bs (nth u (m_rows G) []))] else []).
Lemma edges_es G num bs M u : cp_edges G num bs M u = fold_opt (fun M e => m_new_edge M (fst (fst e)) (snd (fst e)) (snd e)) (es_of G num bs u) M.
Proof.
  unfold cp_edges, es_of. destruct (nth u num 0 =? bs); [reflexivity|]. rewrite fold_app.
  rewrite <- (fold_flat (fun M e => m_new_edge M (fst (fst e)) (snd (fst e)) (snd e)) (cp_inner num bs u)).
  - destruct (fold_opt (cp_inner num bs u) (nth u (m_rows G) []) M) as [M1|]; [|reflexivity]. destruct (0 <? cp_outer num bs (nth u (m_rows G) []))%N; [|reflexivity]. cbn [fold_opt fst snd]. destruct (m_new_edge _ _ _ _); reflexivity.
  - intros s h. unfold cp_inner, es_inner. destruct (nth (fst (fst h)) num 0 =? bs); [reflexivity|]. destruct (nth u num 0 <? nth (fst (fst h)) num 0); [|reflexivity]. cbn [fold_opt fst snd]. destruct (m_new_edge _ _ _ _); reflexivity.
Qed.
Lemma place_pl G num M u : cp_place G num M u = fold_opt (fun M e => match add_cont M (fst e) (snd e) with Some M1 => set_pos M1 (snd e) (fst e) | None => None end) (map (fun x => (nth u num 0, x)) (nth u (m_cont G) [])) M.
Proof.
  unfold cp_place. revert M. induction (nth u (m_cont G) []) as [|x l IH]; intro M; [reflexivity|]. cbn [map fold_opt fst snd]. destruct (add_cont M (nth u num 0) x) as [M1|]; [|reflexivity]. destruct (set_pos M1 x (nth u num 0)); auto.
Qed.
Lemma iter_empty : forall j M, m_last M + j <= m_n M -> exists l, Nat.iter j new_empty_node M = mk_mg (m_rows M) (m_deg M) (m_part M) (m_cut M) (m_pos M) (m_cont M) l (m_ne M) (m_pc M) (m_orig M) /\ l = m_last M + j.
Proof.
  induction j as [|j IH]; intros M H; [exists (m_last M); split; [destruct M; reflexivity|lia]|]. destruct (IH M ltac:(lia)) as (l & E & El). cbn [Nat.iter nat_rect].
  change (nat_rect (fun _ : nat => mg) M (fun _ : nat => new_empty_node) j) with (Nat.iter j new_empty_node M). rewrite E. unfold new_empty_node, m_n in *. cbn [m_rows m_last]. destruct (Nat.eqb_spec l (length (m_rows M))); [lia|]. eexists. split; [reflexivity|lia].
Qed.
Lemma pos_surj n c G : good n c G -> m_n G <= n.
Proof.
  intro GD. assert (X : incl (seq 0 (m_n G)) (map (fun x => nth x (m_pos G) 0) (seq 0 n))).
  { intros p Ip. apply in_seq in Ip. destruct (member n c G GD p ltac:(lia)) as (x & Hx & E). apply in_map_iff. exists x. split; [auto|apply in_seq; lia]. }
  apply NoDup_incl_length in X; [|apply seq_NoDup]. rewrite map_length, !seq_length in X. exact X.
Qed.
