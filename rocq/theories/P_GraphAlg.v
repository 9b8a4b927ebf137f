(* P_GraphAlg.v - proofs about the validity checks, top_k_degrees and centralFlowEdge. *)
From Coq Require Import Permutation.
From Verif Require Import M_GraphAlg P_Mutable SpecHop P_BfsDist.

Lemma sumN_nil {A} (f : A -> N) : sumN f [] = 0%N. Proof. reflexivity. Qed.
Lemma sumN_cons {A} (f : A -> N) x l : sumN f (x :: l) = (f x + sumN f l)%N. Proof. reflexivity. Qed.

(** * the check of a mutable graph *)
Lemma chk_cont_ok pos v xs : chk_cont pos v xs = Some true <-> forall x, In x xs -> nth_error pos x = Some v.
Proof.
  induction xs as [|x xs IH]; cbn [chk_cont]; [split; [intros _ x []|auto]|].
  destruct (nth_error pos x) as [p|] eqn:E.
  - destruct (Nat.eqb_spec p v) as [->|N].
    + rewrite IH. split; [intros H y [<-|Hy]; auto|intros H y Hy; apply H; right; auto].
    + split; [discriminate|]. intro H. specialize (H x (or_introl eq_refl)). congruence.
  - split; [discriminate|]. intro H. specialize (H x (or_introl eq_refl)). congruence.
Qed.

Definition tg (h : half) : nat := fst (fst h).
Definition wg (h : half) : N := snd (fst h).

Lemma chk_row_ok rows v row : forall k seen w0 w', chk_row rows v k row seen w0 = Some (Some w') <->
  ((forall i t w r, nth_error row i = Some (t, w, r) -> t < length rows /\ t <> v /\ slot rows t r = Some (v, w, k + i)) /\
   NoDup (map tg row) /\ (forall t, In t (map tg row) -> ~ In t seen) /\ w' = (w0 + sumN wg row)%N).
Proof.
  induction row as [|[[t w] r] row IH]; intros k seen w0 w'.
  - cbn [chk_row]. split.
    + intro H. injection H as <-. split; [intros [|i]; discriminate|]. split; [constructor|]. split; [intros t []|]. rewrite sumN_nil. lia.
    + intros (_ & _ & _ & ->). rewrite sumN_nil. repeat f_equal. lia.
  - cbn [chk_row]. split.
    + destruct (existsb (Nat.eqb t) seen) eqn:ES; [discriminate|]. destruct (Nat.eqb_spec t v) as [|NV]; [discriminate|]. destruct (Nat.leb_spec (length rows) t) as [|LT]; [discriminate|].
      destruct (slot rows t r) as [[[t2 w2] r2]|] eqn:SL; [|discriminate]. destruct (Nat.eqb_spec t2 v) as [->|]; [|discriminate]. destruct (N.eqb_spec w2 w) as [->|]; [|discriminate]. destruct (Nat.eqb_spec r2 k) as [->|]; [|discriminate].
      cbn [negb]. intro H. apply IH in H as (A & B & C & D).
      assert (NS : ~ In t seen). { intro H. apply Bool.not_true_iff_false in ES. apply ES, existsb_exists. exists t. split; [auto|apply Nat.eqb_refl]. }
      split; [|split; [|split]].
      * intros [|i] t' w1 r' E; cbn [nth_error] in E; [injection E as <- <- <-; rewrite Nat.add_0_r; auto|]. destruct (A i t' w1 r' E) as (A1 & A2 & A3). replace (k + S i) with (S k + i) by lia. auto.
      * cbn [map]. constructor; [|exact B]. intro H. apply (C _ H). left. reflexivity.
      * intros t' [<-|H]; [exact NS|]. intro H'. apply (C _ H). right. exact H'.
      * rewrite D, sumN_cons. cbn [wg fst snd]. lia.
    + intros (A & B & C & D). destruct (A 0 t w r eq_refl) as (A1 & A2 & A3). cbn [map] in B, C. inversion B as [|? ? B1 B2]; subst.
      assert (ES : existsb (Nat.eqb t) seen = false). { apply Bool.not_true_iff_false. intro H. apply existsb_exists in H as (x & H & E). apply Nat.eqb_eq in E. subst x. apply (C t); [left; reflexivity|auto]. }
      rewrite ES. destruct (Nat.eqb_spec t v); [congruence|]. destruct (Nat.leb_spec (length rows) t); [lia|]. rewrite A3, Nat.add_0_r, !Nat.eqb_refl, N.eqb_refl. cbn [negb]. apply IH.
      split; [|split; [|split]].
      * intros i t' w1 r' E. destruct (A (S i) t' w1 r' E) as (X & Y & Z). replace (S k + i) with (k + S i) by lia. auto.
      * exact B2.
      * intros t' Ht' [<-|H']; [apply B1; exact Ht'|]. apply (C t'); [right; auto|auto].
      * rewrite sumN_cons. cbn [wg fst snd]. lia.
Qed.

Definition node_fine (G : mg) (v : nat) : Prop :=
  (exists xs, nth_error (m_cont G) v = Some xs /\ forall x, In x xs -> nth_error (m_pos G) x = Some v) /\
  (forall i t w r, nth_error (nth v (m_rows G) []) i = Some (t, w, r) -> t < m_n G /\ t <> v /\ slot (m_rows G) t r = Some (v, w, i)) /\
  NoDup (map tg (nth v (m_rows G) [])) /\
  nth_error (m_deg G) v = Some (sumN wg (nth v (m_rows G) [])).

Lemma chk_nodes_ok G vs : forall e0 e, chk_nodes G vs e0 = Some (Some e) <->
  (forall v, In v vs -> node_fine G v) /\ e = (e0 + sumN (fun v => N.of_nat (length (nth v (m_rows G) []))) vs)%N.
Proof.
  induction vs as [|v vs IH]; intros e0 e; cbn [chk_nodes].
  - rewrite sumN_nil. split; [intro H; injection H as <-; split; [intros v []|lia]|intros [_ ->]; repeat f_equal; lia].
  - rewrite sumN_cons. destruct (nth_error (m_cont G) v) as [xs|] eqn:EC; [|split; [discriminate|intros [H _]; destruct (H v (or_introl eq_refl)) as [(xs & E & _) _]; congruence]].
    destruct (chk_cont (m_pos G) v xs) as [[]|] eqn:CC.
    + assert (CX : forall x, In x xs -> nth_error (m_pos G) x = Some v) by (apply chk_cont_ok; auto).
      destruct (chk_row (m_rows G) v 0 (nth v (m_rows G) []) [] 0%N) as [[w|]|] eqn:CR.
      * apply chk_row_ok in CR as (A & B & _ & D). destruct (nth_error (m_deg G) v) as [d|] eqn:ED.
        -- destruct (N.eqb_spec w d) as [->|NE].
           ++ rewrite IH. split; intros [H ->]; split; try lia.
              ** intros u [<-|Hu]; [|auto]. split; [exists xs; auto|]. split; [exact A|]. split; [exact B|]. rewrite ED, D. reflexivity.
              ** intros u Hu. apply H. right. auto.
           ++ split; [discriminate|]. intros [H _]. destruct (H v (or_introl eq_refl)) as (_ & _ & _ & F). rewrite ED in F. injection F as F. lia.
        -- split; [discriminate|]. intros [H _]. destruct (H v (or_introl eq_refl)) as (_ & _ & _ & F). congruence.
      * split; [discriminate|]. intros [H _]. destruct (H v (or_introl eq_refl)) as (_ & F2 & F3 & _).
        assert (X : chk_row (m_rows G) v 0 (nth v (m_rows G) []) [] 0%N = Some (Some (0 + sumN wg (nth v (m_rows G) []))%N)); [|congruence].
        apply chk_row_ok. split; [exact F2|]. split; [exact F3|]. split; [intros t _ []|reflexivity].
      * split; [discriminate|]. intros [H _]. destruct (H v (or_introl eq_refl)) as (_ & F2 & F3 & _).
        assert (X : chk_row (m_rows G) v 0 (nth v (m_rows G) []) [] 0%N = Some (Some (0 + sumN wg (nth v (m_rows G) []))%N)); [|congruence].
        apply chk_row_ok. split; [exact F2|]. split; [exact F3|]. split; [intros t _ []|reflexivity].
    + split; [discriminate|]. intros [H _]. destruct (H v (or_introl eq_refl)) as [(xs' & E & F) _]. replace xs' with xs in F by congruence. apply chk_cont_ok in F. congruence.
    + split; [discriminate|]. intros [H _]. destruct (H v (or_introl eq_refl)) as [(xs' & E & F) _]. replace xs' with xs in F by congruence. apply chk_cont_ok in F. congruence.
Qed.

Lemma rows_total (G : mg) : sumN (fun v => N.of_nat (length (nth v (m_rows G) []))) (seq 0 (m_n G)) = sumN (fun row : list half => N.of_nat (length row)) (m_rows G).
Proof.
  unfold m_n. generalize (m_rows G) as R. clear G.
  induction R as [|r R IH] using rev_ind; [reflexivity|]. rewrite app_length. cbn [length]. rewrite Nat.add_1_r, seq_S, sumN_app, (sumN_app _ R). cbn [plus]. f_equal.
  - rewrite <- IH. apply sumN_ext. intros v Hv. apply in_seq in Hv. rewrite app_nth1 by lia. reflexivity.
  - rewrite !sumN_cons, !sumN_nil, app_nth2, Nat.sub_diag by lia. reflexivity.
Qed.

Lemma check_mutable_ok G : check_mutable G = Some true <-> (forall v, v < m_n G -> node_fine G v) /\ count_exact (m_rows G) (m_ne G).
Proof.
  unfold check_mutable, count_exact. pose proof (chk_nodes_ok G (seq 0 (m_n G)) 0%N) as H. rewrite rows_total in H. rewrite N.add_0_l in H.
  set (T := sumN (fun row : list half => N.of_nat (length row)) (m_rows G)) in *.
  destruct (chk_nodes G (seq 0 (m_n G)) 0%N) as [[e|]|].
  - destruct (proj1 (H e) eq_refl) as [A B]. split.
    + intro E. injection E as E. apply N.eqb_eq in E. split; [intros v Hv; apply A, in_seq; lia|congruence].
    + intros [_ E]. f_equal. apply N.eqb_eq. congruence.
  - split; [discriminate|]. intros [A B]. destruct (H T) as [_ X]. discriminate X. split; [intros v Hv; apply A; apply in_seq in Hv; lia|reflexivity].
  - split; [discriminate|]. intros [A B]. destruct (H T) as [_ X]. discriminate X. split; [intros v Hv; apply A; apply in_seq in Hv; lia|reflexivity].
Qed.

(** * the check of a static graph *)
Lemma small_bit a i : (a < 2 ^ 32)%N -> (32 <= i)%N -> N.testbit a i = false.
Proof. intros H L. rewrite <- (N.mod_small a (2 ^ 32)) by exact H. apply N.mod_pow2_bits_high. exact L. Qed.
Lemma pair_key_inj a b c d : (N.of_nat a < 2 ^ 32)%N -> (N.of_nat b < 2 ^ 32)%N -> (N.of_nat c < 2 ^ 32)%N -> (N.of_nat d < 2 ^ 32)%N -> pair_key a b = pair_key c d -> a = c /\ b = d.
Proof.
  intros A B C D E. unfold pair_key in E. split; apply Nat2N.inj; apply N.bits_inj; intro i.
  - assert (X : N.testbit (N.lor (N.shiftl (N.of_nat a) 32) (N.of_nat b)) (i + 32) = N.testbit (N.lor (N.shiftl (N.of_nat c) 32) (N.of_nat d)) (i + 32)) by (rewrite E; reflexivity).
    rewrite !N.lor_spec, !N.shiftl_spec_high' in X by lia. rewrite (small_bit (N.of_nat b)), (small_bit (N.of_nat d)) in X by (auto; lia). rewrite !orb_false_r, N.add_sub in X. exact X.
  - destruct (N.lt_ge_cases i 32) as [L|L]; [|rewrite !small_bit; auto].
    assert (X : N.testbit (N.lor (N.shiftl (N.of_nat a) 32) (N.of_nat b)) i = N.testbit (N.lor (N.shiftl (N.of_nat c) 32) (N.of_nat d)) i) by (rewrite E; reflexivity).
    rewrite !N.lor_spec, !N.shiftl_spec_low in X by auto. exact X.
Qed.

Section Static.
Context (n : nat) (Hn : (N.of_nat n <= 2 ^ 32)%N).
Definition edge := (nat * nat * N)%type.
Definition ends (e : edge) : nat * nat := fst e.
Definition inb (e : edge) : Prop := fst (fst e) < n /\ snd (fst e) < n.

Definition pmem (p : nat * nat) (W : list edge) : bool := existsb (fun e => (fst (ends e) =? fst p) && (snd (ends e) =? snd p)) W.
Lemma pmem_In p W : pmem p W = true <-> In p (map ends W).
Proof.
  unfold pmem. rewrite existsb_exists, in_map_iff. split.
  - intros ([[a b] w] & H & E). apply andb_true_iff in E as [E1 E2]. apply Nat.eqb_eq in E1, E2. exists (a, b, w). cbn in *. subst. destruct p; auto.
  - intros (e & <- & H). exists e. rewrite !Nat.eqb_refl. auto.
Qed.

(* the map and the list of edges put into it *)
Definition maps_to (m : list (N * N)) (W : list edge) : Prop := m = map (fun e : edge => (pair_key (fst (ends e)) (snd (ends e)), snd e)) W.

Lemma key_find_some m W a b : maps_to m W -> (forall e, In e W -> inb e) -> a < n -> b < n ->
  match key_find (pair_key a b) m with Some w => In (a, b, w) W | None => ~ In (a, b) (map ends W) end.
Proof.
  intros -> HW Ha Hb. unfold key_find. destruct (find _ _) as [x|] eqn:F.
  - apply find_some in F as [H E]. apply in_map_iff in H as ([[c d] w] & <- & H). cbn [fst snd ends] in *. apply N.eqb_eq in E. destruct (HW _ H) as [H1 H2]. cbn in H1, H2.
    apply pair_key_inj in E as [-> ->]; [auto|lia..].
  - intro H. apply in_map_iff in H as ([[c d] w] & E & H). cbn [ends fst] in E. injection E as -> ->.
    pose proof (find_none _ _ F (pair_key a b, w)) as X. cbn [fst] in X. rewrite N.eqb_refl in X. discriminate X. apply in_map_iff. exists (a, b, w). auto.
Qed.

Definition rev_in (W : list edge) (e : edge) : bool := negb (fst (ends e) =? snd (ends e)) && pmem (snd (ends e), fst (ends e)) W.
Definition opened (W : list edge) : list edge := filter (fun e => negb (rev_in W e)) W.
Definition cons_w (W : list edge) : Prop := forall a b w w', In (a, b, w) W -> In (b, a, w') W -> w = w'.
Record cinv (W : list edge) (found : nat) : Prop := {
  ci_b : forall e, In e W -> inb e; ci_nd : NoDup (map ends W); ci_w : cons_w W; ci_c : length W = 2 * found + length (opened W) }.

Lemma filter_drop {A} (f g : A -> bool) (l : list A) x : NoDup l -> In x l -> f x = true -> g x = false -> (forall y, In y l -> y <> x -> g y = f y) -> length (filter f l) = S (length (filter g l)).
Proof.
  induction l as [|y l IH]; intros ND Hx F Gx H; [destruct Hx|]. inversion ND as [|? ? N1 N2]; subst. cbn [filter]. destruct Hx as [->|Hx].
  - rewrite F, Gx. cbn [length]. f_equal. f_equal. apply filter_ext_in. intros z Hz. symmetry. apply H; [right; auto|intros ->; auto].
  - assert (NY : y <> x) by (intros ->; auto). rewrite (H y (or_introl eq_refl) NY).
    assert (E : length (filter f l) = S (length (filter g l))) by (apply IH; auto; intros; apply H; auto; right; auto).
    destruct (f y); cbn [length]; rewrite E; reflexivity.
Qed.

Lemma NoDup_of_map {A B} (f : A -> B) l : NoDup (map f l) -> NoDup l.
Proof. apply NoDup_map_inv. Qed.

Lemma opened_step W s t w : NoDup (map ends W) -> ~ In (s, t) (map ends W) ->
  length (opened ((s, t, w) :: W)) = if pmem (t, s) W then length (opened W) - 1 else S (length (opened W)).
Proof.
  intros ND NI.
  assert (RI : forall e, In e W -> rev_in ((s, t, w) :: W) e = (rev_in W e || (negb (s =? t) && (fst (ends e) =? t) && (snd (ends e) =? s)))%bool).
  { intros [[a b] x] He. unfold rev_in. change (pmem (snd (ends (a, b, x)), fst (ends (a, b, x))) ((s, t, w) :: W)) with (((s =? b) && (t =? a)) || pmem (b, a) W)%bool.
    cbn [ends fst snd]. rewrite (Nat.eqb_sym s b), (Nat.eqb_sym t a).
    destruct (Nat.eqb_spec b s) as [->|], (Nat.eqb_spec a t) as [->|], (pmem _ W); rewrite ?andb_false_r, ?andb_true_r, ?orb_false_r, ?orb_true_r; cbn [orb andb]; auto.
    - rewrite (Nat.eqb_sym s t). destruct (t =? s); reflexivity.
    - rewrite (Nat.eqb_sym s t). destruct (t =? s); reflexivity. }
  unfold opened. cbn [filter].
  destruct (pmem (t, s) W) eqn:PM.
  - assert (NST : s <> t) by (intros ->; apply NI, pmem_In; auto).
    replace (rev_in ((s, t, w) :: W) (s, t, w)) with true.
    2:{ symmetry. unfold rev_in, ends. cbn [fst snd]. apply andb_true_iff. split; [apply negb_true_iff, Nat.eqb_neq; auto|]. apply pmem_In. cbn [map]. right. apply pmem_In. exact PM. }
    cbn [negb]. apply pmem_In, in_map_iff in PM as ([[a b] x] & E & H). cbn [ends fst] in E. injection E as -> ->.
    rewrite (filter_drop (fun e => negb (rev_in W e)) (fun e => negb (rev_in ((s, t, w) :: W) e)) W (t, s, x)); [lia|apply (NoDup_of_map ends); auto|auto| | |].
    + apply negb_true_iff. unfold rev_in, ends. cbn [fst snd]. apply andb_false_iff. right. apply Bool.not_true_iff_false. rewrite pmem_In. exact NI.
    + apply negb_false_iff. rewrite RI by auto. cbn [ends fst snd]. rewrite !Nat.eqb_refl. apply orb_true_iff. right. rewrite (proj2 (Nat.eqb_neq s t) NST). reflexivity.
    + intros [[c d] y] Hy Ny. rewrite RI by auto. f_equal. cbn [ends fst snd]. destruct (Nat.eqb_spec c t) as [->|]; [|rewrite andb_false_r; cbn; apply orb_false_r].
      destruct (Nat.eqb_spec d s) as [->|]; [|rewrite andb_false_r; apply orb_false_r]. exfalso. apply Ny.
      assert (y = x); [|subst; auto]. clear - ND H Hy. induction W as [|e W IH]; [destruct H|]. inversion ND as [|? ? N1 N2]; subst.
      destruct H as [->|H], Hy as [E|Hy]; [injection E as ->; auto| | |auto].
      * exfalso. apply N1. apply in_map_iff. exists (t, s, y). auto.
      * subst e. exfalso. apply N1. apply in_map_iff. exists (t, s, x). auto.
  - replace (rev_in ((s, t, w) :: W) (s, t, w)) with false.
    2:{ symmetry. unfold rev_in, ends. cbn [fst snd]. apply andb_false_iff. destruct (Nat.eqb_spec s t) as [->|NE]; [left; reflexivity|right].
        apply Bool.not_true_iff_false. rewrite pmem_In. cbn [map]. intros [E|H]; [cbn in E; injection E as E1 E2; congruence|]. apply pmem_In in H. congruence. }
    cbn [negb length]. f_equal. f_equal. apply filter_ext_in. intros [[c d] y] Hy. rewrite RI by auto. cbn [ends fst snd].
    destruct (Nat.eqb_spec c t) as [->|]; [|rewrite andb_false_r; cbn; rewrite orb_false_r; reflexivity]. destruct (Nat.eqb_spec d s) as [->|]; [|rewrite andb_false_r, orb_false_r; reflexivity].
    exfalso. apply Bool.not_true_iff_false in PM. apply PM, pmem_In, in_map_iff. exists (t, s, y). auto.
Qed.

Lemma opened_pos W s t w : NoDup (map ends W) -> ~ In (s, t) (map ends W) -> In (t, s, w) W -> 0 < length (opened W).
Proof.
  intros ND NI H. assert (X : In (t, s, w) (opened W)); [|destruct (opened W); [destruct X|cbn; lia]].
  apply filter_In. split; [auto|]. apply negb_true_iff. unfold rev_in, ends. cbn [fst snd]. apply andb_false_iff. right. apply Bool.not_true_iff_false. rewrite pmem_In. exact NI.
Qed.

Lemma same_wt W a b w w' : NoDup (map ends W) -> In (a, b, w) W -> In (a, b, w') W -> w = w'.
Proof.
  intros ND H H'. induction W as [|e W IH]; [destruct H|]. inversion ND as [|? ? N1 N2]; subst.
  destruct H as [->|H], H' as [E|H']; [injection E as ->; auto| | |auto].
  - exfalso. apply N1. apply in_map_iff. exists (a, b, w'). auto.
  - subst e. exfalso. apply N1. apply in_map_iff. exists (a, b, w). auto.
Qed.

Lemma cinv_step W found s t w : cinv W found -> s < n -> t < n -> ~ In (s, t) (map ends W) -> (forall w', In (t, s, w') W -> w' = w) ->
  cinv ((s, t, w) :: W) (if pmem (t, s) W then S found else found).
Proof.
  intros [B ND CW C] Hs Ht NI HW. constructor.
  - intros e [<-|H]; [split; auto|auto].
  - cbn [map]. constructor; auto.
  - intros a b x y [E|H] [E'|H'].
    + injection E as -> -> ->. injection E' as E1 E2 ->. auto.
    + injection E as -> -> ->. symmetry. auto.
    + injection E' as -> -> ->. auto.
    + eapply CW; eauto.
  - rewrite opened_step by auto. cbn [length]. destruct (pmem (t, s) W) eqn:PM; [|lia].
    apply pmem_In, in_map_iff in PM as ([[a b] x] & E & H). cbn [ends fst] in E. injection E as -> ->. pose proof (opened_pos W s t x ND NI H). lia.
Qed.

Lemma chk_edges_fwd es : forall W m found f, maps_to m W -> cinv W found -> (forall e, In e es -> fst (fst e) < n) -> chk_edges n es m found = Some f ->
  cinv (rev es ++ W) f.
Proof.
  induction es as [|[[s t] w] es IH]; intros W m found f M C Hs E; cbn [chk_edges] in E; [injection E as <-; exact C|].
  destruct (Nat.leb_spec n t) as [|Lt]; [discriminate|]. pose proof (Hs _ (or_introl eq_refl)) as Ls. cbn in Ls.
  pose proof (key_find_some m W s t M (ci_b _ _ C) Ls Lt) as K1. destruct (key_find (pair_key s t) m); [discriminate|].
  pose proof (key_find_some m W t s M (ci_b _ _ C) Lt Ls) as K2. cbn [rev]. rewrite <- app_assoc. cbn [app].
  assert (M' : maps_to ((pair_key s t, w) :: m) ((s, t, w) :: W)) by (unfold maps_to in *; cbn [map ends fst snd]; rewrite M; reflexivity).
  destruct (key_find (pair_key t s) m) as [w'|].
  - destruct (N.eqb_spec w' w) as [EW|]; [|discriminate]. subst w'. eapply (IH _ _ (S found)); [exact M'| |intros; apply Hs; right; auto|exact E].
    replace (S found) with (if pmem (t, s) W then S found else found). { apply cinv_step; auto. intros w'' H. eapply same_wt; [apply (ci_nd _ _ C)|exact H|exact K2]. }
    replace (pmem (t, s) W) with true; [reflexivity|]. symmetry. apply pmem_In, in_map_iff. exists (t, s, w). auto.
  - eapply (IH _ _ found); [exact M'| |intros; apply Hs; right; auto|exact E].
    replace found with (if pmem (t, s) W then S found else found) at 1. { apply cinv_step; auto. intros w'' H. exfalso. apply K2, in_map_iff. exists (t, s, w''). auto. }
    replace (pmem (t, s) W) with false; [reflexivity|]. symmetry. apply Bool.not_true_iff_false. rewrite pmem_In. exact K2.
Qed.

Lemma chk_edges_bwd es : forall W m found, maps_to m W -> (forall e, In e W -> inb e) -> (forall e, In e es -> inb e) -> NoDup (map ends (rev es ++ W)) -> cons_w (rev es ++ W) ->
  exists f, chk_edges n es m found = Some f.
Proof.
  induction es as [|[[s t] w] es IH]; intros W m found M B Hs ND CW; cbn [chk_edges]; [eauto|].
  destruct (Hs _ (or_introl eq_refl)) as [Ls Lt]. cbn in Ls, Lt. destruct (Nat.leb_spec n t); [lia|].
  cbn [rev] in ND, CW. rewrite <- app_assoc in ND, CW. cbn [app] in ND, CW.
  assert (M' : maps_to ((pair_key s t, w) :: m) ((s, t, w) :: W)) by (unfold maps_to in *; cbn [map ends fst snd]; rewrite M; reflexivity).
  assert (G : forall found', exists f, chk_edges n es ((pair_key s t, w) :: m) found' = Some f).
  { intro found'. apply (IH ((s, t, w) :: W)); auto; [intros e [<-|H']; [split; auto|auto]|intros; apply Hs; right; auto]. }
  pose proof (key_find_some m W s t M B Ls Lt) as K1. destruct (key_find (pair_key s t) m) as [x|].
  - exfalso. rewrite map_app in ND. apply NoDup_remove_2 in ND as X. cbn [map ends fst] in ND. apply NoDup_remove_2 in ND. apply ND. apply in_or_app. right. apply in_map_iff. exists (s, t, x). auto.
  - pose proof (key_find_some m W t s M B Lt Ls) as K2. destruct (key_find (pair_key t s) m) as [w'|]; [|apply G].
    destruct (N.eqb_spec w' w) as [|NE]; [apply G|]. exfalso. apply NE. apply (CW t s w' w); apply in_or_app; right; [right; auto|left; auto].
Qed.

(** the edges of a graph the check accepts *)
Definition sym_edges (es : list edge) : Prop :=
  NoDup (map ends es) /\ forall a b w, In (a, b, w) es -> a <> b /\ b < n /\ In (b, a, w) es.

Lemma chk_static es : (forall e, In e es -> fst (fst e) < n) ->
  ((match chk_edges n es [] 0 with None => false | Some f => f * 2 =? length es end) = true <-> sym_edges es).
Proof.
  intros Hs. assert (C0 : cinv [] 0) by (constructor; [intros e []|constructor|intros a b w w' []|reflexivity]).
  split.
  - destruct (chk_edges n es [] 0) as [f|] eqn:E; [|discriminate]. intro H. apply Nat.eqb_eq in H.
    pose proof (chk_edges_fwd es [] [] 0 f eq_refl C0 Hs E) as [B ND CW C]. rewrite app_nil_r in *.
    assert (O : opened (rev es) = []) by (apply length_zero_iff_nil; rewrite rev_length in C; lia).
    split. { apply (Permutation_NoDup (Permutation_map ends (Permutation_sym (Permutation_rev es)))) . exact ND. }
    intros a b w H1. apply in_rev in H1. assert (R : rev_in (rev es) (a, b, w) = true).
    { destruct (rev_in (rev es) (a, b, w)) eqn:R; [auto|]. exfalso. assert (X : In (a, b, w) (opened (rev es))) by (apply filter_In; rewrite R; auto). rewrite O in X. destruct X. }
    apply andb_true_iff in R as [R1 R2]. cbn [ends fst snd] in R1, R2. apply negb_true_iff, Nat.eqb_neq in R1. split; [auto|]. split; [apply (B _ H1)|].
    apply pmem_In, in_map_iff in R2 as ([[c d] x] & E1 & H2). cbn [ends fst] in E1. injection E1 as -> ->. rewrite (CW a b w x H1 H2). apply in_rev. exact H2.
  - intros [ND S]. assert (IB : forall e, In e es -> inb e) by (intros [[a b] w] H; split; [apply (Hs _ H)|apply (S a b w H)]).
    assert (NDr : NoDup (map ends (rev es))) by (apply (Permutation_NoDup (Permutation_map ends (Permutation_rev es))); exact ND).
    assert (CW : cons_w (rev es)). { intros a b w w' H H'. apply in_rev in H, H'. destruct (S a b w H) as (_ & _ & H2). apply (same_wt es b a w w' ND H2 H'). }
    destruct (chk_edges_bwd es [] [] 0 eq_refl ltac:(intros e []) IB ltac:(rewrite app_nil_r; exact NDr) ltac:(rewrite app_nil_r; exact CW)) as [f E]. rewrite E.
    pose proof (chk_edges_fwd es [] [] 0 f eq_refl C0 Hs E) as [_ _ _ C]. rewrite app_nil_r in C.
    assert (O : opened (rev es) = []).
    { destruct (opened (rev es)) as [|[[a b] w] l] eqn:O; [auto|]. exfalso. assert (X : In (a, b, w) (opened (rev es))) by (rewrite O; left; auto). apply filter_In in X as [X R]. apply in_rev in X.
      destruct (S a b w X) as (N1 & _ & H2). apply negb_true_iff in R. unfold rev_in in R. cbn [ends fst snd] in R. rewrite (proj2 (Nat.eqb_neq a b) N1) in R. cbn in R. apply Bool.not_true_iff_false in R. apply R. apply pmem_In, in_map_iff. exists (b, a, w). split; [auto|]. apply in_rev in H2. auto. }
    rewrite O, rev_length in C. cbn [length] in C. apply Nat.eqb_eq. lia.
Qed.
End Static.

(** * centralFlowEdge *)
Section Central.
Context (G : mg) (V : mvalid G).
Notation T := (targets G).

Lemma T_len : length T = m_n G. Proof. unfold targets, m_n. apply map_length. Qed.
Lemma T_in v w : In w (nth v T []) <-> exists e x r, slot (m_rows G) v e = Some (w, x, r).
Proof.
  unfold targets. change (@nil nat) with (map (fun x : half => fst (fst x)) []). rewrite map_nth, in_map_iff. split.
  - intros ([[t x] r] & E & H). cbn in E. subst. apply In_nth_error in H as [e H]. exists e, x, r. exact H.
  - intros (e & x & r & H). exists (w, x, r). split; [reflexivity|]. eapply nth_error_In. exact H.
Qed.
Lemma T_lt v w : In w (nth v T []) -> w < m_n G.
Proof. intro H. apply T_in in H as (e & x & r & H). apply (proj1 V v e w x r H). Qed.
Lemma T_ne v w : In w (nth v T []) -> w <> v.
Proof. intro H. apply T_in in H as (e & x & r & H). apply (proj1 V v e w x r H). Qed.
Lemma T_sym v w : In w (nth v T []) -> In v (nth w T []).
Proof. intro H. apply T_in in H as (e & x & r & H). apply T_in. exists r, x, e. apply (proj1 V v e w x r H). Qed.

Lemma hop_trans a b c j k : hop T a b j -> hop T b c k -> hop T a c (j + k).
Proof. intros H1 H2. revert H1. induction H2 as [|v w k H2 IH Hw]; intro H1; [rewrite Nat.add_0_r; auto|]. rewrite Nat.add_succ_r. eapply hop_S; eauto. Qed.
Lemma hop_sym a b k : hop T a b k -> hop T b a k.
Proof.
  induction 1 as [|v w k H IH Hw]; [constructor|]. replace (S k) with (1 + k) by lia. apply hop_trans with v; [|exact IH].
  apply hop_S with w; [constructor|apply T_sym; exact Hw].
Qed.
Lemma hop_lt a b k : a < m_n G -> hop T a b k -> b < m_n G.
Proof. intros Ha H. inversion H as [|v w j H' Hw]; subst; [auto|]. eapply T_lt; eauto. Qed.

Lemma walk_up_ok s par dist : (forall v, reach T s v -> v <> s -> exists p, nth v par None = Some p /\ reach T s p /\ In v (nth p T []) /\ nth v dist 0 = S (nth p dist 0)) ->
  nth s dist 0 = 0 ->
  forall c v, reach T s v -> c <= nth v dist 0 -> exists v', walk_up c par dist (nth v dist 0) v = Some v' /\ reach T s v' /\ nth v' dist 0 = nth v dist 0 - c.
Proof.
  intros HP H0. induction c as [|c IH]; intros v R L; cbn [walk_up]; [exists v; split; [reflexivity|]; split; [auto|lia]|].
  rewrite Nat.eqb_refl. destruct (HP v R) as (p & A & B & _ & D); [intros ->; lia|]. rewrite A, D. replace (S (nth p dist 0) - 1) with (nth p dist 0) by lia.
  destruct (IH p B) as (v' & E1 & E2 & E3); [lia|]. exists v'. split; [exact E1|]. split; [exact E2|]. lia.
Qed.

Lemma edge_to_ok row p : forall k, In p (map tg row) -> exists e, edge_to row p k = Some (k + e) /\ exists w r, nth_error row e = Some (p, w, r).
Proof.
  induction row as [|[[t w] r] row IH]; intros k H; [destruct H|]. cbn [edge_to]. destruct (Nat.eqb_spec t p) as [->|N].
  - exists 0. rewrite Nat.add_0_r. split; [reflexivity|]. exists w, r. reflexivity.
  - destruct H as [H|H]; [cbn in H; congruence|]. destruct (IH (S k) H) as (e & E & w' & r' & F). exists (S e). split; [rewrite E; f_equal; lia|]. exists w', r'. exact F.
Qed.

Lemma central_ok r : r < m_n G -> nth r (m_rows G) [] <> [] ->
  exists v e p w rv v1 D, central_flow_edge G r = Some (v, e, p) /\ slot (m_rows G) v e = Some (p, w, rv) /\
    reach T r v1 /\ hopdist T v1 v ((D + 1) / 2) /\ hopdist T v1 p ((D + 1) / 2 - 1) /\ 1 <= D /\ (exists v2, hopdist T v1 v2 D) /\ (forall u k, hopdist T v1 u k -> k <= D).
Proof.
  intros Hr NE. assert (HL : forall v w, In w (nth v T []) -> w < length T) by (intros v w H; rewrite T_len; eapply T_lt; eauto).
  destruct (bfs_distances_ok T r ltac:(rewrite T_len; auto) HL) as (par1 & dist1 & far1 & E1 & _ & _ & _ & _ & _ & (v1 & k1 & -> & R1 & _)).
  assert (Lv1 : v1 < m_n G) by (eapply hop_lt; eauto).
  destruct (bfs_distances_ok T v1 ltac:(rewrite T_len; auto) HL) as (par & dist & far & E2 & _ & _ & DI & PA & UN & (v2 & k2 & -> & R2 & MX)).
  destruct (UN v1 (or_introl eq_refl)) as [_ D0]. set (D := nth v2 dist 0) in *.
  assert (D1 : 1 <= D).
  { assert (X : exists u, reach T v1 u /\ u <> v1).
    { destruct (Nat.eq_dec r v1) as [<-|NR]; [|exists r; split; [exists k1; apply hop_sym; exact R1|auto]].
      destruct (nth r (m_rows G) []) as [|[[t w] rv] l] eqn:ER; [congruence|]. assert (IT : In t (nth r T [])) by (apply T_in; exists 0, w, rv; unfold slot; rewrite ER; reflexivity).
      exists t. split; [exists 1; apply hop_S with r; [constructor|exact IT]|apply T_ne; exact IT]. }
    destruct X as (u & Ru & Nu). destruct (PA u Ru Nu) as (p & _ & _ & _ & Dp). pose proof (MX u Ru). unfold D. lia. }
  assert (HD : (D + 1) / 2 <= D) by (apply Nat.div_le_upper_bound; lia). assert (HD1 : 1 <= (D + 1) / 2) by (apply Nat.div_le_lower_bound; lia).
  destruct (walk_up_ok v1 par dist PA D0 (D - (D + 1) / 2) v2 (ex_intro _ k2 R2) ltac:(fold D; lia)) as (v & W & Rv & Dv). fold D in W, Dv.
  assert (Dv' : nth v dist 0 = (D + 1) / 2) by lia.
  destruct (PA v Rv) as (p & P1 & P2 & P3 & P4); [intros ->; lia|].
  apply T_sym in P3. assert (IP : In p (map tg (nth v (m_rows G) []))). { unfold targets in P3. change (@nil nat) with (map (fun x : half => fst (fst x)) []) in P3. rewrite map_nth in P3. exact P3. }
  destruct (edge_to_ok _ p 0 IP) as (e & EE & w & rv & SL).
  exists v, e, p, w, rv, v1, D. split; [|split; [exact SL|]].
  - unfold central_flow_edge. rewrite E1, E2. fold D. rewrite W, P1, EE. reflexivity.
  - split; [exists k1; exact R1|]. split; [rewrite <- Dv'; apply DI; exact Rv|]. split; [replace ((D + 1) / 2 - 1) with (nth p dist 0) by lia; apply DI; exact P2|]. split; [exact D1|]. split; [exists v2; apply DI; exists k2; exact R2|].
    intros u k [H1 H2]. destruct (DI u (ex_intro _ k H1)) as [H3 _]. pose proof (H2 _ H3). pose proof (MX u (ex_intro _ k H1)). unfold D. lia.
Qed.
End Central.
