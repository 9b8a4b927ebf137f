(* P_IsoFlow4.v - maximumSTFlow and nonTerminalFlow. *)
From Coq Require Import Permutation.
From Verif Require Import SpecRel P_UnionFind SpecFlow P_Cut P_Mutable P_Multi P_Kernel P_KernelC P_Kernel3 P_Kernel5 P_Iso M_IsoFlow P_Flow6 P_IsoFlow P_IsoFlow2 P_IsoFlow3.

Lemma cost_ge_cut n W f i : symm n W -> (cutw n W (fun v => Nat.eqb (f v) i) <= mtcost n W f)%N.
Proof.
  intro Sy. cut (dcut n W (fun v => Nat.eqb (f v) i) <= dcost n W f)%N; [rewrite dcut_twice, dcost_half by auto; lia|].
  rewrite dcost_bool. apply bsum_le. intros u _. apply bsum_le. intros v _.
  destruct (Nat.eqb_spec (f u) i), (Nat.eqb_spec (f v) i), (Nat.eqb_spec (f u) (f v)); cbn; try lia; congruence.
Qed.

Lemma cost_eq_cut n W f S : symm n W -> (forall u v, u < n -> v < n -> W u v <> 0%N -> (f u = f v <-> S u = S v)) -> mtcost n W f = cutw n W S.
Proof.
  intros Sy H. cut (dcost n W f = dcut n W S)%N; [rewrite dcut_twice, dcost_half by auto; lia|].
  rewrite dcost_bool. apply bsum_ext. intros u Hu. apply bsum_ext. intros v Hv. destruct (N.eq_dec (W u v) 0) as [->|E]; [destruct (negb _), (xorb _ _); reflexivity|].
  specialize (H u v Hu Hv E). destruct (Nat.eqb_spec (f u) (f v)) as [Q|Q], (S u), (S v); cbn; try reflexivity; exfalso; intuition congruence.
Qed.

Lemma part_block_len bl b : forall p, length (part_block bl b p) = length p.
Proof. unfold part_block. induction bl as [|v bl IH]; intro p; [reflexivity|]. cbn [fold_left]. rewrite IH. apply upd_length. Qed.
Lemma part_block_nth bl b : forall p v, v < length p -> nth v (part_block bl b p) 0 = if mem bl v then b else nth v p 0.
Proof.
  unfold part_block. induction bl as [|x bl IH]; intros p v Hv; [reflexivity|]. cbn [fold_left]. rewrite IH by (rewrite upd_length; auto).
  cbn [mem existsb]. unfold mem. destruct (existsb (Nat.eqb v) bl) eqn:E; [rewrite orb_true_r; reflexivity|]. rewrite orb_false_r.
  destruct (Nat.eqb_spec v x) as [->|N]; [rewrite nth_upd_eq by auto; reflexivity|rewrite nth_upd_neq by auto; reflexivity].
Qed.

(** maximumSTFlow with two terminals that have edges *)
Theorem st_flow_ok pick gl maps origs G T old ts deleted : (forall k q, q <> [] -> In (pick k q) q) -> kstate G maps origs T ->
  set_terms G maps origs old = Some ts -> length ts = 2 ->
  exists F, forall fuel, F <= fuel -> exists G' up, st_flow fuel pick gl maps origs G ts deleted = Some (G', up) /\
    kstate G' maps origs T /\ m_rows G' = m_rows G /\
    separates (m_n G) T (fun v => nth v (m_part G') 0) /\
    up = (deleted + mtcost (m_n G) (wt (adj (m_rows G))) (fun v => nth v (m_part G') 0%nat))%N /\
    mtopt (m_n G) (wt (adj (m_rows G))) T (mtcost (m_n G) (wt (adj (m_rows G))) (fun v => nth v (m_part G') 0)).
Proof.
  intros Hp KS Ets L2. pose proof KS as [A1 A2 A3 A4 A5 A6 A7 A8]. set (n := m_n G) in *. set (W := wt (adj (m_rows G))) in *.
  destruct (terms_of G maps origs T old KS) as (ts' & E' & TA & TI & _). rewrite Ets in E'. injection E' as <-.
  destruct ts as [|a [|b [|? ?]]]; try discriminate L2. cbn [map] in TA.
  destruct (TI a (or_introl eq_refl)) as (Ia & Na & _). destruct (TI b (or_intror (or_introl eq_refl))) as (Ib & Nb & _).
  assert (LN : NoDup [t_at a; t_at b]) by (rewrite TA; apply NoDup_filter; auto).
  assert (LL : forall t, In t [t_at a; t_at b] -> t < length (m_rows G)) by (rewrite TA; intros t Ht; apply filter_In in Ht; apply A7; tauto).
  destruct (solve_ok (m_rows G) [t_at a; t_at b] (t_at a) (proj1 A1) LL (or_introl eq_refl) LN pick gl 0 eq_refl Hp) as (F & c & l & D1 & D2 & D3 & D4 & D5 & D6 & D7).
  change (length (m_rows G)) with n in *. fold W in D6, D7.
  exists F. intros fuel Hf. unfold st_flow. cbn [map]. rewrite (D1 fuel Hf). fold n.
  destruct (part_terms_ok G maps origs T 0 (repeat (t_id b) n) A6 A7 A8 (repeat_length _ _)) as (p & -> & Lp & Pt & Po). fold n in Lp.
  set (G' := with_part G (part_block l (t_id a) p)). rewrite N2Z.id. exists G', (c + deleted)%N.
  set (f := fun v => nth v (m_part G') 0).
  assert (Ef : forall v, v < n -> f v = if mem l v then t_id a else nth v p 0) by (intros v Hv; unfold f, G'; cbn [with_part m_part]; apply part_block_nth; lia).
  assert (Op : forall v, v < n -> ~ In v T -> nth v p 0 = t_id b).
  { intros v Hv N. rewrite Po by auto. rewrite (nth_indep _ 0 (t_id b)) by (rewrite repeat_length; auto). apply nth_repeat. }
  assert (Sy : symm n W) by (apply W_symm; apply A1).
  assert (Nab : t_at a <> t_at b) by (inversion LN as [|? ? X _]; intro Y; apply X; left; auto).
  assert (Iab : t_id a <> t_id b) by (intro X; apply Nab; rewrite Na, Nb, X; auto).
  assert (LV : forall v, nth v (m_rows G) [] <> [] -> In v T -> v = t_at a \/ v = t_at b).
  { intros v Nv Hv. assert (X : In v (live G T)) by (apply live_In; auto). rewrite <- TA in X. cbn in X. destruct X as [X|[X|[]]]; auto. }
  assert (Fl : forall v, v < n -> nth v (m_rows G) [] <> [] -> f v = if mem l v then t_id a else t_id b).
  { intros v Hv Nv. rewrite Ef by auto. destruct (mem l v) eqn:M; [reflexivity|]. destruct (in_dec Nat.eq_dec v T) as [I|I]; [|auto].
    destruct (LV v Nv I) as [->| ->].
    - apply mem_out in M. contradiction.
    - rewrite Nb. rewrite Pt by auto. reflexivity. }
  assert (CE : mtcost n W f = c).
  { rewrite <- D6. apply cost_eq_cut; auto. intros u v Hu Hv NW.
    assert (Ru : nth u (m_rows G) [] <> []) by (intro X; apply NW; apply row_nil_wt; [apply A1|auto]).
    assert (Rv : nth v (m_rows G) [] <> []) by (intro X; apply NW; rewrite Sy by auto; apply row_nil_wt; [apply A1|auto]).
    rewrite !Fl by auto. destruct (mem l u), (mem l v); intuition congruence. }
  assert (SP : separates n T f).
  { split.
    - intros v Hv. rewrite Ef by auto. destruct (mem l v); [auto|]. destruct (in_dec Nat.eq_dec v T) as [I|I]; [|rewrite Op by auto; auto].
      apply In_nth with (d := 0) in I. destruct I as (j & Hj & <-). rewrite Pt by auto. lia.
    - intros i Hi. assert (Hin : In (nth i T 0) T) by (apply nth_In; auto). rewrite Ef by (apply A7; auto). destruct (mem l (nth i T 0)) eqn:M; [|rewrite Pt by auto; reflexivity].
      apply mem_In in M. assert (Q : nth i T 0 = t_at a).
      { destruct (D3 _ M) as [_ [X|[X _]]]; [auto|]. destruct (LV _ X Hin) as [Y|Y]; [auto|]. exfalso. apply (D5 (t_at b)); [right; left; auto|auto|rewrite <- Y; auto]. }
      rewrite Na in Q. symmetry. apply (proj1 (NoDup_nth T 0) A8); auto. }
  split; [reflexivity|]. split; [|split; [reflexivity|split; [exact SP|split]]].
  - constructor; auto. change (length (part_block l (t_id a) p) = n). rewrite part_block_len. auto.
  - fold f. rewrite CE. apply N.add_comm.
  - fold f. split; [exists f; auto|]. intros f' F'. rewrite CE. eapply N.le_trans; [|apply (cost_ge_cut n W f' (t_id a) Sy)]. apply D7.
    + rewrite Na, (proj2 F') by auto. apply Nat.eqb_refl.
    + intros t [<-|[<-|[]]] Nt; [congruence|]. rewrite Nb, (proj2 F') by auto. apply Nat.eqb_neq. congruence.
Qed.

(** ** nonTerminalFlow *)
(** a start vertex that is a terminal: the flow is the one between the terminals *)
Lemma fold_skip {A} (f : A -> nat -> A) src : (forall a, f a src = a) -> forall l a, fold_left f (l ++ [src]) a = fold_left f l a.
Proof. intros H l a. rewrite fold_left_app. cbn. apply H. Qed.

Lemma upd_same {A} (l : list A) i d : i < length l -> upd l i (nth i l d) = l.
Proof. revert i. induction l as [|x l IH]; intros [|i] H; cbn in *; try lia; [reflexivity|]. f_equal. apply IH. lia. Qed.

Lemma active_again ts r a : In r ts -> r < length a -> fold_left (fun a t => upd a t true) (ts ++ [r]) a = fold_left (fun (a : list bool) t => upd a t true) ts a.
Proof.
  intros H L. rewrite fold_left_app. cbn. set (b := fold_left _ ts a).
  assert (X : length b = length a /\ nth r b false = true).
  { unfold b. clear b. revert a L. induction ts as [|t ts IH]; intros a L; [contradiction|]. cbn [fold_left].
    assert (G : forall ts' a', length (fold_left (fun (a : list bool) t => upd a t true) ts' a') = length a' /\ (r < length a' -> nth r a' false = true -> nth r (fold_left (fun a t => upd a t true) ts' a') false = true)).
    { induction ts' as [|t' ts' IH']; intro a'; [auto|]. cbn [fold_left]. destruct (IH' (upd a' t' true)) as [G1 G2]. rewrite upd_length in G1. split; [auto|]. intros L' E. apply G2; [rewrite upd_length; auto|].
      destruct (Nat.eq_dec r t') as [->|N]; [apply nth_upd_eq; auto|rewrite nth_upd_neq by auto; auto]. }
    destruct (Nat.eq_dec r t) as [->|N].
    - destruct (G ts (upd a t true)) as [G1 G2]. rewrite upd_length in *. split; [auto|]. apply G2; [auto|apply nth_upd_eq; auto].
    - destruct H as [->|H]; [congruence|]. destruct (IH H (upd a t true)) as [I1 I2]; [rewrite upd_length; auto|]. rewrite upd_length in I1. auto. }
  destruct X as [X1 X2]. rewrite <- X2 at 1. apply upd_same. lia.
Qed.

Lemma solve_again fuel pick gl R ts r i : (forall t, In t ts -> t < length R) -> nth_error ts i = Some r ->
  solve_max_flow fuel pick gl R (ts ++ [r]) (length ts) = solve_max_flow fuel pick gl R ts i.
Proof.
  intros Ht Ei. assert (Ir : In r ts) by (eapply nth_error_In; eauto).
  assert (GR : forall b s, global_relabel b R (ts ++ [r]) r s = global_relabel b R ts r s).
  { intros b s. unfold global_relabel. rewrite fold_skip; [reflexivity|]. intros [[q tc] [ds ct]]. unfold gr_sink. rewrite Nat.eqb_refl. reflexivity. }
  assert (PL : forall f k s, pr_loop f pick gl k R (ts ++ [r]) r s = pr_loop f pick gl k R ts r s).
  { induction f as [|f IH]; intros k s; cbn [pr_loop]; destruct (p_q s); auto. rewrite GR. destruct (if gl k then _ else _); auto. }
  assert (SS : forall fl, source_set R (ts ++ [r]) r fl = source_set R ts r fl).
  { intro fl. unfold source_set. rewrite fold_skip; [reflexivity|]. intro b. unfold ss_sink. rewrite Nat.eqb_refl. reflexivity. }
  assert (TF : forall s, total_flow (ts ++ [r]) r s = total_flow ts r s).
  { intro s. unfold total_flow. apply fold_skip. intro a. rewrite Nat.eqb_refl. reflexivity. }
  unfold solve_max_flow. rewrite forallb_app. cbn [forallb]. rewrite (proj2 (Nat.ltb_lt r (length R)) (Ht r Ir)), andb_true_r. cbn [andb]. rewrite andb_true_r || idtac.
  rewrite nth_error_app2, Nat.sub_diag by lia. cbn [nth_error]. rewrite Ei. destruct (negb _); [reflexivity|]. rewrite GR.
  assert (PI : pr_init R (ts ++ [r]) r = pr_init R ts r) by (unfold pr_init; rewrite active_again; [reflexivity|auto|rewrite repeat_length; auto]).
  rewrite PI. destruct (global_relabel true R ts r (pr_init R ts r)) as [s0|]; [|reflexivity]. rewrite PL.
  destruct (pr_loop fuel pick gl 0 R ts r s0) as [s|]; [|reflexivity]. rewrite SS, TF. reflexivity.
Qed.

(** what the flow from r gives: a set containing r and no other terminal that may be moved to the block of r *)
Definition good_set (G : mg) (ts : list nat) (r : nat) (l : list nat) : Prop :=
  (forall v, In v l -> v < m_n G /\ (v = r \/ (nth v (m_rows G) [] <> [] /\ nth r (m_rows G) [] <> []))) /\ In r l /\ (forall t, In t ts -> t <> r -> ~ In t l) /\
  forall f, (mtcost (m_n G) (wt (adj (m_rows G))) (mvs f (mem l) (f r)) <= mtcost (m_n G) (wt (adj (m_rows G))) f)%N.

Lemma nt_run_ok G ts r pick gl : mvalid G -> (forall t, In t ts -> t < m_n G) -> NoDup ts -> r < m_n G -> (forall k q, q <> [] -> In (pick k q) q) ->
  exists F l, (forall fuel, F <= fuel -> exists x, solve_max_flow fuel pick gl (m_rows G) (ts ++ [r]) (length ts) = Some (x, l)) /\ good_set G ts r l.
Proof.
  intros MV Ht Nd Hr Hp. assert (Sy : symm (m_n G) (wt (adj (m_rows G)))) by (apply W_symm; apply MV). destruct (in_dec Nat.eq_dec r ts) as [I|I].
  - apply In_nth_error in I. destruct I as [i Ei]. destruct (solve_ok (m_rows G) ts r (proj1 MV) Ht (nth_error_In _ _ Ei) Nd pick gl i Ei Hp) as (F & c & l & D1 & D2 & D3 & D4 & D5 & D6 & D7).
    exists F, l. split; [intros fuel Hf; exists (Z.of_N c); rewrite (solve_again fuel pick gl (m_rows G) ts r i Ht Ei); auto|].
    split; [auto|]. split; [auto|]. split; [auto|]. intro f. apply (iso_move (m_n G) _ ts Sy r (mem l) c). split; [|split; [exact D6|]].
    + split; [apply mem_In; auto|]. intros t T1 T2. apply mem_out. auto.
    + intros S [S1 S2]. apply D7; auto.
  - assert (Ei : nth_error (ts ++ [r]) (length ts) = Some r) by (rewrite nth_error_app2, Nat.sub_diag by lia; reflexivity).
    assert (Ht' : forall t, In t (ts ++ [r]) -> t < length (m_rows G)) by (intros t H; apply in_app_or in H; destruct H as [H|[<-|[]]]; auto; apply Ht; auto).
    assert (Nd' : NoDup (ts ++ [r])) by (apply Permutation_NoDup with (l := r :: ts); [apply Permutation_cons_append|constructor; auto]).
    destruct (solve_ok (m_rows G) (ts ++ [r]) r (proj1 MV) Ht' (nth_error_In _ _ Ei) Nd' pick gl (length ts) Ei Hp) as (F & c & l & D1 & D2 & D3 & D4 & D5 & D6 & D7).
    exists F, l. split; [intros fuel Hf; exists (Z.of_N c); auto|].
    split; [auto|]. split; [auto|]. split; [intros t T1 T2; apply D5; [apply in_or_app; auto|auto]|]. intro f. apply (iso_move (m_n G) _ (ts ++ [r]) Sy r (mem l) c). split; [|split; [exact D6|]].
    + split; [apply mem_In; auto|]. intros t T1 T2. apply mem_out. auto.
    + intros S [S1 S2]. apply D7; auto.
Qed.

(** moving one set, for separating assignments *)
Lemma move_separates G ts r l f : good_set G ts r l -> NoDup ts -> r < m_n G -> separates (m_n G) ts f -> separates (m_n G) ts (mvs f (mem l) (f r)).
Proof.
  intros (A & B & C & _) Nd Hr [F1 F2]. split.
  - intros v Hv. unfold mvs. destruct (mem l v); auto.
  - intros i Hi. unfold mvs. destruct (mem l (nth i ts 0)) eqn:M; [|auto]. apply mem_In in M. destruct (Nat.eq_dec (nth i ts 0) r) as [<-|N]; [auto|].
    exfalso. apply (C (nth i ts 0)); auto. apply nth_In. auto.
Qed.

(** pairwise disjoint sets *)
Definition disjoint_sets (ls : list (nat * list nat)) : Prop := ForallOrdPairs (fun p q => forall v, In v (snd p) -> ~ In v (snd q)) ls.

Lemma sets_safe G ts ls : NoDup ts -> (forall r l, In (r, l) ls -> r < m_n G /\ good_set G ts r l) -> disjoint_sets ls ->
  safe_pairs (m_n G) (wt (adj (m_rows G))) ts (conn (flat_map (fun p => map (fun s => (s, fst p)) (snd p)) ls)).
Proof.
  intros Nd Hb D f F.
  assert (X : exists f', separates (m_n G) ts f' /\ (mtcost (m_n G) (wt (adj (m_rows G))) f' <= mtcost (m_n G) (wt (adj (m_rows G))) f)%N /\ forall r l, In (r, l) ls -> forall u, In u l -> f' u = f' r).
  { revert f F. induction ls as [|[r l] ls IH]; intros f F.
    - exists f. split; [auto|]. split; [lia|]. intros ? ? [].
    - inversion D as [|? ? D1 D2]. subst. destruct (IH ltac:(intros; apply Hb; right; auto) D2 f F) as (f1 & F1 & L1 & C1).
      destruct (Hb r l (or_introl eq_refl)) as [Hr GS]. exists (mvs f1 (mem l) (f1 r)). split; [apply (move_separates G ts r l); auto|].
      pose proof GS as (_ & Ir & _ & MV). split; [pose proof (MV f1); lia|]. intros r' l' [E|H] u Hu.
      + injection E as <- <-. unfold mvs. rewrite (proj2 (mem_In l u) Hu), (proj2 (mem_In l r) Ir). reflexivity.
      + rewrite Forall_forall in D1. pose proof (D1 _ H) as Q. cbn [snd] in Q. unfold mvs.
        assert (Ir' : In r' l') by (destruct (Hb r' l' (or_intror H)) as [_ (_ & X & _)]; auto).
        rewrite (proj2 (mem_out l u)), (proj2 (mem_out l r')) by (intro Y; eapply Q; eauto). eapply C1; eauto. }
  destruct X as (f' & F' & L & C). exists f'. split; [auto|]. split; [auto|]. intros a b _ _ H. revert a b H. apply conn_in_relation; try congruence.
  intros x y H. apply in_flat_map in H. destruct H as ([r l] & Hl & H). cbn in H. apply in_map_iff in H. destruct H as (s & E & Hs). injection E as <- <-. eapply C; eauto.
Qed.

Lemma union_all_ok n r l : r < n -> (forall s, In s l -> s < n) -> forall ps u, inv n ps u -> exists u', union_all u r l = Some u' /\ inv n (ps ++ map (fun s => (s, r)) l) u'.
Proof.
  intros Hr. induction l as [|s l IH]; intros Hl ps u I; cbn [union_all map].
  - exists u. rewrite app_nil_r. auto.
  - destruct (union_inv n ps u s r I) as (u' & b & -> & I' & _); [apply Hl; left; auto|auto|]. destruct (IH ltac:(intros; apply Hl; right; auto) _ _ I') as (u2 & E & I2).
    exists u2. split; [auto|]. rewrite <- app_assoc in I2. exact I2.
Qed.

(** the flows: one set per start vertex *)
Lemma nt_sets_ok G ts (pick : nat -> nat -> list nat -> nat) gl : mvalid G -> (forall t, In t ts -> t < m_n G) -> NoDup ts -> (forall i k q, q <> [] -> In (pick i k q) q) ->
  forall rs, (forall r, In r rs -> r < m_n G) ->
  exists F ls, map fst ls = rs /\ (forall r l, In (r, l) ls -> r < m_n G /\ good_set G ts r l) /\
    (forall fuel, F <= fuel -> forall r l, In (r, l) ls -> exists x, solve_max_flow fuel (pick r) (gl r) (m_rows G) (ts ++ [r]) (length ts) = Some (x, l)) /\
    forall fuel, F <= fuel -> forall ps u, inv (m_n G) ps u -> exists u', nonterminal_flow fuel pick gl G ts rs u = Some u' /\
      inv (m_n G) (ps ++ flat_map (fun p => map (fun s => (s, fst p)) (snd p)) ls) u'.
Proof.
  intros MV Ht Nd Hp. induction rs as [|r rs IH]; intro Hr.
  - exists 0, []. split; [reflexivity|]. split; [intros ? ? []|]. split; [intros ? _ ? ? []|]. intros fuel _ ps u I. exists u. rewrite app_nil_r. auto.
  - destruct (IH ltac:(intros; apply Hr; right; auto)) as (F & ls & A & B & C & D). assert (Hr0 : r < m_n G) by (apply Hr; left; auto).
    destruct (nt_run_ok G ts r (pick r) (gl r) MV Ht Nd Hr0 (Hp r)) as (F' & l & E & GS).
    exists (Nat.max F F'), ((r, l) :: ls). split; [cbn; f_equal; auto|]. split; [|split].
    + intros r' l' [H|H]; [injection H as <- <-; auto|auto].
    + intros fuel Hf r' l' [H|H]; [injection H as <- <-; apply E; lia|apply C; [lia|auto]].
    + intros fuel Hf ps u I. cbn [nonterminal_flow]. destruct (E fuel ltac:(lia)) as [x ->].
      destruct (union_all_ok (m_n G) r l Hr0 (fun s Hs => proj1 (proj1 GS s Hs)) ps u I) as (u1 & -> & I1).
      destruct (D fuel ltac:(lia) _ _ I1) as (u2 & -> & I2). exists u2. split; [reflexivity|]. cbn [flat_map fst snd]. rewrite app_assoc. exact I2.
Qed.

(** dropping the loops from the pairs *)
Lemma conn_no_loops ps x y : conn ps x y <-> conn (filter (fun p => negb (fst p =? snd p)) ps) x y.
Proof.
  split; intro H; induction H; eauto using conn_refl, conn_sym, conn_trans.
  - destruct (Nat.eq_dec x y) as [->|N]; [apply conn_refl|]. apply conn_pair. apply filter_In. split; [auto|]. cbn. destruct (Nat.eqb_spec x y); [congruence|reflexivity].
  - apply filter_In in H. apply conn_pair. tauto.
Qed.

Theorem nonterminal_rule_ok (pick : nat -> nat -> list nat -> nat) gl rs ord maps origs G T : (forall l, Permutation (ord l) l) -> (forall i k q, q <> [] -> In (pick i k q) q) ->
  kstate G maps origs T -> 0 < length T -> (forall r, In r rs -> r < m_n G) ->
  exists F ls, map fst ls = rs /\
    (forall fuel, F <= fuel -> forall r l, In (r, l) ls -> exists x, solve_max_flow fuel (pick r) (gl r) (m_rows G) (live G T ++ [r]) (length (live G T)) = Some (x, l)) /\
    (disjoint_sets ls -> forall fuel, F <= fuel ->
      exists G' ts' w T', rule_step (fun G ts => nonterminal_flow fuel pick gl G ts rs (uf_init (m_n G))) ord maps origs G = Some (G', ts', w) /\ kstate G' maps origs T' /\ map fst ts' = live G' T' /\
        forall c, mtopt (m_n G) (wt (adj (m_rows G))) T c <-> exists c', mtopt (m_n G') (wt (adj (m_rows G'))) T' c' /\ c = (c' + w)%N).
Proof.
  intros OP Hp KS PT Hr. pose proof KS as [A1 A2 A3 A4 A5 A6 A7 A8].
  assert (LL : forall t, In t (live G T) -> t < m_n G) by (intros t Ht; apply filter_In in Ht; apply A7; tauto).
  assert (LN : NoDup (live G T)) by (apply NoDup_filter; auto).
  destruct (nt_sets_ok G (live G T) pick gl A1 LL LN Hp rs Hr) as (F & ls & B1 & B2 & B3 & B4). exists F, ls. split; [auto|]. split; [auto|].
  intros D fuel Hf. apply rule_step_ok; auto.
  destruct (B4 fuel Hf [] (uf_init (m_n G)) (inv_init _)) as (u & E & I). cbn [app] in I.
  set (ps := flat_map (fun p => map (fun s => (s, fst p)) (snd p)) ls) in *. exists u, (filter (fun p => negb (fst p =? snd p)) ps). split; [exact E|]. split; [|split].
  - apply (inv_ext _ ps); [apply conn_no_loops| |auto]. intros x y H. apply filter_In in H. apply (inv_pairs _ _ _ I). tauto.
  - intros f Ff. destruct (sets_safe G (live G T) ls LN B2 D f Ff) as (f' & F' & L' & K'). exists f'. split; [auto|]. split; [auto|]. intros a b Ha Hb C. apply K'; auto. apply conn_no_loops. auto.
  - intros a b H. apply filter_In in H. destruct H as [H N]. cbn in N. apply Bool.negb_true_iff, Nat.eqb_neq in N.
    apply in_flat_map in H. destruct H as ([r l] & Hl & H). cbn in H. apply in_map_iff in H. destruct H as (s & Es & Hs). injection Es as <- <-.
    destruct (B2 r l Hl) as [_ (X & _)]. destruct (X s Hs) as [_ [Y|Y]]; [congruence|auto].
Qed.
