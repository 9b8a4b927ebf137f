(* P_EqNeigh.v - vertices with the same neighbourhood can share a block: safety of the equal neighbourhood rule. *)
From Coq Require Import Permutation.
From Verif Require Import SpecRel P_UnionFind P_Cut P_Mutable P_MutableIO P_PRTests P_Multi P_Kernel.
From Verif Require Export M_EqNeigh.

(** ** twins *)
Section Twins.
Context (n : nat) (W : wfun) (ts : list nat) (Sy : symm n W).

Definition twin (a b : nat) : Prop := a < n /\ b < n /\ ~ In a ts /\ ~ In b ts /\ forall x, x < n -> x <> a -> x <> b -> W a x = W b x.

Lemma twin_refl a : a < n -> ~ In a ts -> twin a a.
Proof. intros. split; [|split; [|split; [|split]]]; auto. Qed.
Lemma twin_sym a b : twin a b -> twin b a.
Proof. intros (A & B & C & D & E). split; [|split; [|split; [|split]]]; auto. intros x Hx N1 N2. symmetry. apply E; auto. Qed.
Lemma twin_trans a b c : twin a b -> twin b c -> twin a c.
Proof.
  intros (A & B & C & D & E) (_ & B' & _ & D' & E'). split; [|split; [|split; [|split]]]; auto. intros x Hx N1 N2.
  destruct (Nat.eq_dec a b) as [->|Nab]; [auto|]. destruct (Nat.eq_dec b c) as [<-|Nbc]; [auto|]. destruct (Nat.eq_dec a c) as [->|Nac]; [auto|].
  destruct (Nat.eq_dec x b) as [->|Nxb].
  - rewrite (Sy a b), <- (Sy b c) by auto. rewrite (E' a), (Sy c a) by auto. rewrite <- (Sy c a) by auto. rewrite (Sy c a) by auto.
    rewrite (E c) by auto. reflexivity.
  - rewrite E by auto. apply E'; auto.
Qed.

Definition twinb (a b : nat) : bool :=
  (b <? n) && negb (isterm ts a) && negb (isterm ts b) && forallb (fun x => (x =? a) || (x =? b) || (W a x =? W b x)%N) (seq 0 n).
Lemma twinb_ok a b : a < n -> (twinb a b = true <-> twin a b).
Proof.
  intro Ha. unfold twinb, twin. rewrite !Bool.andb_true_iff, !Bool.negb_true_iff, !isterm_out, Nat.ltb_lt, forallb_forall. split.
  - intros [[[B C] D] E]. split; [|split; [|split; [|split]]]; auto. intros x Hx N1 N2. specialize (E x ltac:(apply in_seq; lia)).
    destruct (Nat.eqb_spec x a); [contradiction|]. destruct (Nat.eqb_spec x b); [contradiction|]. apply N.eqb_eq. exact E.
  - intros (_ & B & C & D & E). split; [auto|]. intros x Hx. apply in_seq in Hx. destruct (Nat.eqb_spec x a); [reflexivity|]. destruct (Nat.eqb_spec x b); [reflexivity|].
    apply N.eqb_eq. apply E; auto; lia.
Qed.

(** attachment after a move *)
Lemma att_mv f a l c k : c <> a -> a < n ->
  (att n W (mv f a l) c k + (if Nat.eqb (f a) k then W c a else 0) = att n W f c k + (if Nat.eqb l k then W c a else 0))%N.
Proof.
  intros Nc Ha. unfold att.
  rewrite <- (bsum_single n (fun v => if Nat.eqb (f v) k then W c v else 0%N) a Ha).
  assert (E : (if Nat.eqb l k then W c a else 0%N) = bsum n (fun v => if Nat.eqb v a then (if Nat.eqb l k then W c v else 0%N) else 0%N)) by (symmetry; apply (bsum_single n (fun v => if Nat.eqb l k then W c v else 0%N) a Ha)).
  rewrite E, <- !bsum_add. apply bsum_ext. intros v Hv. unfold mv. destruct (Nat.eqb_spec v a) as [->|Nv].
  - destruct (Nat.eqb_spec a c); [congruence|]. lia.
  - lia.
Qed.

(** attachment of a twin *)
Lemma att_twin f a b : twin a b -> a <> b -> f a <> f b -> (att n W f a (f b) = att n W f b (f b) + W a b)%N.
Proof.
  intros (A & B & _ & _ & E) Nab Nf. unfold att. rewrite <- (bsum_single n (W a) b B), <- bsum_add. apply bsum_ext. intros v Hv.
  destruct (Nat.eqb_spec v a) as [->|Na].
  - destruct (Nat.eqb_spec a b); [contradiction|]. destruct (Nat.eqb_spec (f a) (f b)); [contradiction|]. reflexivity.
  - destruct (Nat.eqb_spec v b) as [->|Nb]; [rewrite Nat.eqb_refl; lia|]. rewrite E by auto. lia.
Qed.

(** b is a member of the class K whose attachment to its own block is greatest *)
Definition best (K : list nat) (f : nat -> nat) (b : nat) : Prop :=
  In b K /\ forall c, In c K -> (att n W f c (f c) <= att n W f b (f b))%N.

Lemma best_ex K f : K <> [] -> exists b, best K f b.
Proof.
  induction K as [|a K IH]; [congruence|]. intros _. destruct K as [|a' K'].
  - exists a. split; [left; auto|]. intros c [<-|[]]. lia.
  - destruct IH as (b & Hb & M); [discriminate|]. destruct (N.le_gt_cases (att n W f a (f a)) (att n W f b (f b))) as [L|L].
    + exists b. split; [right; auto|]. intros c [<-|Hc]; auto.
    + exists a. split; [left; auto|]. intros c [<-|Hc]; [lia|]. specialize (M c Hc). lia.
Qed.

Lemma best_move K f b a : (forall x y, In x K -> In y K -> twin x y) -> best K f b -> In a K -> f a <> f b ->
  best K (mv f a (f b)) b /\ (mtcost n W (mv f a (f b)) <= mtcost n W f)%N.
Proof.
  intros TW [Hb M] Ha Nf. assert (Nab : a <> b) by congruence. pose proof (TW a b Ha Hb) as Tab. pose proof Tab as (La & Lb & _).
  pose proof (att_twin f a b Tab Nab Nf) as AT. split.
  - split; [auto|]. intros c Hc. rewrite (mv_neq f a (f b) b) by auto. pose proof (att_mv f a (f b) b (f b) (not_eq_sym Nab) La) as B1. rewrite Nat.eqb_refl in B1.
    destruct (Nat.eqb_spec (f a) (f b)); [contradiction|]. assert (Wba : W b a = W a b) by (apply Sy; auto).
    destruct (Nat.eq_dec c a) as [->|Nc].
    + rewrite mv_eq. rewrite (att_ext n W (mv f a (f b)) f a (f b)) by (intros v _ Nv; apply mv_neq; auto). lia.
    + rewrite (mv_neq f a (f b) c) by auto. pose proof (att_mv f a (f b) c (f c) Nc La) as B2. specialize (M c Hc).
      destruct (Nat.eqb_spec (f b) (f c)) as [Ec|Ec].
      * destruct (Nat.eqb_spec (f a) (f c)); [congruence|].
        assert (Wc : W c a = W b a). { destruct (Nat.eq_dec c b) as [->|Ncb]; [reflexivity|]. apply (TW c b Hc Hb); auto. }
        lia.
      * lia.
  - apply move_le; auto. rewrite AT. specialize (M a Ha). lia.
Qed.

Lemma unify_list K : (forall x y, In x K -> In y K -> twin x y) -> forall L f b, incl L K -> best K f b -> separates n ts f ->
  exists f', separates n ts f' /\ (mtcost n W f' <= mtcost n W f)%N /\ best K f' b /\ f' b = f b /\
    (forall v, In v L -> f' v = f b) /\ (forall v, f v = f b -> f' v = f b) /\ (forall v, ~ In v K -> f' v = f v).
Proof.
  intro TW. induction L as [|a L IH]; intros f b IL B F.
  - exists f. split; [auto|]. split; [lia|]. split; [auto|]. split; [auto|]. split; [intros v []|]. auto.
  - assert (Ha : In a K) by (apply IL; left; auto). assert (IL' : incl L K) by (intros v Hv; apply IL; right; auto).
    destruct (Nat.eq_dec (f a) (f b)) as [Ef|Nf].
    + destruct (IH f b IL' B F) as (f' & P1 & P2 & P3 & P4 & P5 & P6 & P7). exists f'. do 4 (split; [auto|]). split; [|auto]. intros v [<-|Hv]; auto.
    + destruct (best_move K f b a TW B Ha Nf) as [B' C]. destruct B as [Hb _]. pose proof (TW a b Ha Hb) as (La & Lb & Na & _).
      assert (F' : separates n ts (mv f a (f b))) by (apply mv_separates; auto; apply F; auto).
      destruct (IH _ b IL' B' F') as (f' & P1 & P2 & P3 & P4 & P5 & P6 & P7). rewrite (mv_neq f a (f b) b) in * by congruence.
      exists f'. split; [auto|]. split; [lia|]. do 2 (split; [auto|]). split; [|split].
      * intros v [<-|Hv]; [apply P6, mv_eq|auto].
      * intros v Hv. apply P6. unfold mv. destruct (v =? a); auto.
      * intros v Nv. rewrite P7 by auto. apply mv_neq. intros ->. contradiction.
Qed.

Definition cls (v : nat) : list nat := filter (twinb v) (seq 0 n).
Lemma cls_In v x : v < n -> (In x (cls v) <-> twin v x).
Proof.
  intro Hv. unfold cls. rewrite filter_In, in_seq, twinb_ok by auto. split; [tauto|]. intro H. split; [|auto]. destruct H as (_ & H & _). lia.
Qed.

Lemma unify_all : forall L f, (forall v, In v L -> v < n) -> separates n ts f ->
  exists f', separates n ts f' /\ (mtcost n W f' <= mtcost n W f)%N /\
    (forall v a b, In v L -> twin v a -> twin v b -> f' a = f' b) /\
    (forall u, u < n -> (forall a b, twin u a -> twin u b -> f a = f b) -> forall a b, twin u a -> twin u b -> f' a = f' b).
Proof.
  induction L as [|v L IH]; intros f HL F; [exists f; split; [auto|]; split; [lia|]; split; [intros ? ? ? []|auto]|].
  assert (Hv : v < n) by (apply HL; left; auto). assert (HL' : forall x, In x L -> x < n) by (intros x Hx; apply HL; right; auto).
  destruct (cls v) as [|a0 K0] eqn:EK.
  - destruct (IH f HL' F) as (f' & P1 & P2 & P3 & P4). exists f'. split; [auto|]. split; [auto|]. split; [|auto].
    intros v' a b [<-|Hv'] Ta Tb; [|apply (P3 v'); auto]. apply (cls_In v a Hv) in Ta. rewrite EK in Ta. destruct Ta.
  - assert (TW : forall x y, In x (cls v) -> In y (cls v) -> twin x y).
    { intros x y Hx Hy. apply cls_In in Hx; auto. apply cls_In in Hy; auto. apply (twin_trans x v y); auto. apply twin_sym. auto. }
    destruct (best_ex (cls v) f) as [b B]; [rewrite EK; discriminate|].
    destruct (unify_list (cls v) TW (cls v) f b (incl_refl _) B F) as (f1 & F1 & C1 & _ & _ & K1 & _ & O1).
    destruct (IH f1 HL' F1) as (f' & P1 & P2 & P3 & P4). exists f'. split; [auto|]. split; [lia|].
    assert (C : forall a a', twin v a -> twin v a' -> f1 a = f1 a').
    { intros a a' Ta Ta'. rewrite !K1 by (apply cls_In; auto). reflexivity. }
    split.
    + intros v' a a' [<-|Hv'] Ta Ta'; [apply (P4 v Hv C); auto|apply (P3 v'); auto].
    + intros u Hu Q. apply P4; auto. intros a a' Ta Ta'.
      destruct (in_dec Nat.eq_dec a (cls v)) as [I|I].
      * apply C; [apply cls_In; auto|]. apply cls_In in I; auto. apply (twin_trans v a a'); auto. apply (twin_trans a u a'); [apply twin_sym; auto|auto].
      * assert (I' : ~ In a' (cls v)).
        { intro I'. apply I. apply cls_In; auto. apply cls_In in I'; auto. apply (twin_trans v a' a); auto. apply (twin_trans a' u a); [apply twin_sym; auto|auto]. }
        rewrite !O1 by auto. apply Q; auto.
Qed.

Theorem twins_safe : safe_pairs n W ts twin.
Proof.
  intros f F. destruct (unify_all (seq 0 n) f) as (f' & P1 & P2 & P3 & _); auto.
  - intros v Hv. apply in_seq in Hv. lia.
  - exists f'. split; [auto|]. split; [auto|]. intros a b Ha Hb T. apply (P3 a); [apply in_seq; lia| |auto]. pose proof T as (_ & _ & Na & _). apply twin_refl; auto.
Qed.

Theorem twin_pairs_safe ps : (forall a b, In (a, b) ps -> twin a b) -> safe_pairs n W ts (conn ps).
Proof.
  intros TP f F. destruct (twins_safe f F) as (f' & P1 & P2 & P3). exists f'. split; [auto|]. split; [auto|]. intros a b _ _ C.
  revert a b C. refine (conn_in_relation ps (fun a b => f' a = f' b) _ _ _ _).
  - reflexivity.
  - intros; auto.
  - intros; congruence.
  - intros a b H. pose proof (TP a b H) as T. apply P3; [apply T..|exact T].
Qed.
End Twins.

(** ** the comparison of the lists *)
Lemma en_same_some : forall a b, length a = length b -> exists r, en_same a b = Some r.
Proof.
  induction a as [|[t w] a IH]; intros [|[t' w'] b] H; try discriminate H; [exists true; reflexivity|]. cbn [en_same].
  destruct ((t =? t') && (w =? w')%N); [apply IH; injection H; auto|eauto].
Qed.
Lemma en_same_true : forall a b, length a = length b -> en_same a b = Some true -> a = b.
Proof.
  induction a as [|[t w] a IH]; intros [|[t' w'] b] H E; try discriminate H; [reflexivity|]. cbn [en_same] in E.
  destruct (Nat.eqb_spec t t') as [->|]; [|discriminate E]. destruct (N.eqb_spec w w') as [->|]; [|discriminate E]. f_equal. apply IH; auto.
Qed.

Lemma filter_neg_length {A} (p : A -> bool) l : length (filter p l) + length (filter (fun x => negb (p x)) l) = length l.
Proof. induction l as [|x l IH]; [reflexivity|]. cbn [filter]. destruct (p x); cbn [negb length]; lia. Qed.

Lemma sumN_perm {A} (f : A -> N) l l' : Permutation l l' -> sumN f l = sumN f l'.
Proof. induction 1; cbn [sumN]; unfold sumN in *; cbn [map fold_right] in *; lia. Qed.
Lemma perm_filter {A} (p : A -> bool) l l' : Permutation l l' -> Permutation (filter p l) (filter p l').
Proof.
  induction 1; cbn [filter]; auto.
  - destruct (p x); auto.
  - destruct (p x), (p y); auto. apply perm_swap.
  - etransitivity; eauto.
Qed.
Lemma filter_filter_sub {A} (p q : A -> bool) l : (forall x, q x = true -> p x = true) -> filter q (filter p l) = filter q l.
Proof.
  intro H. induction l as [|x l IH]; [reflexivity|]. cbn [filter]. destruct (p x) eqn:E; cbn [filter]; rewrite IH; [reflexivity|].
  destruct (q x) eqn:Q; [|reflexivity]. rewrite (H x Q) in E. discriminate E.
Qed.

Section Rows.
Context (R : list (list half)) (V : valid_rows R).
Let n := length R.
Let W := wt (adj R).

Lemma W_row u v : W u v = sumN snd (filter (fun e => fst e =? v) (en_row (nth u R []))).
Proof.
  unfold W, wt, en_row. rewrite adj_nth. f_equal. f_equal. apply map_ext. intros [[t w] r]. reflexivity.
Qed.

(** both directions of a pair of vertices have the same number of edges *)
Definition ones (R : list (list half)) : list (list half) := map (map (fun h : half => (fst (fst h), 1%N, snd h))) R.
Lemma ones_slot v e t w r : slot (ones R) v e = Some (t, w, r) -> w = 1%N /\ exists w', slot R v e = Some (t, w', r).
Proof.
  unfold slot, ones. intro H. change (@nil half) with (map (fun h : half => (fst (fst h), 1%N, snd h)) (@nil half)) in H. rewrite map_nth in H.
  rewrite nth_error_map in H. destruct (nth_error (nth v R []) e) as [[[t' w'] r']|]; [|discriminate H]. cbn in H. injection H as <- <- <-. eauto.
Qed.
Lemma ones_valid : valid_rows (ones R).
Proof.
  intros v e t w r H. destruct (ones_slot v e t w r H) as (-> & w' & S). destruct (V v e t w' r S) as (A & B & C). split; [unfold ones; rewrite map_length; auto|].
  split; [auto|]. unfold slot, ones in *. change (@nil half) with (map (fun h : half => (fst (fst h), 1%N, snd h)) (@nil half)). rewrite map_nth, nth_error_map, C. reflexivity.
Qed.
Lemma count_symm u v : u < n -> v < n -> length (filter (fun e => fst e =? v) (en_row (nth u R []))) = length (filter (fun e => fst e =? u) (en_row (nth v R []))).
Proof.
  intros Hu Hv.
  assert (C : forall u v, wt (adj (ones R)) u v = N.of_nat (length (filter (fun e => fst e =? v) (en_row (nth u R []))))).
  { intros x y. unfold wt. rewrite adj_nth. unfold ones. change (@nil half) with (map (fun h : half => (fst (fst h), 1%N, snd h)) (@nil half)) at 1. rewrite map_nth, map_map.
    unfold en_row. induction (nth x R []) as [|[[t w] r] l IH]; [reflexivity|]. cbn [map filter fst snd]. destruct (t =? y); [|exact IH].
    cbn [length]. rewrite Nat2N.inj_succ. unfold sumN in *. cbn [map fold_right fst snd] in *. rewrite IH. lia. }
  pose proof (W_symm (ones R) ones_valid) as S. unfold ones in S at 1. rewrite map_length in S. specialize (S u v Hu Hv). rewrite !C in S. lia.
Qed.
Section Sort.
Context (srt : list (nat * N) -> list (nat * N)) (SP : forall l, Permutation (srt l) l).

(** equal lists: the vertices are twins *)
Lemma same_twin ts a b : a < n -> b < n -> ~ In a ts -> ~ In b ts ->
  srt (en_row (nth a R [])) = srt (en_row (nth b R [])) -> twin n W ts a b.
Proof.
  intros Ha Hb Na Nb E. split; [|split; [|split; [|split]]]; auto. intros x Hx _ _. rewrite !W_row. apply sumN_perm, perm_filter.
  rewrite <- (SP (en_row (nth a R []))), E. apply SP.
Qed.
Lemma same_twin_nb ts a b : a < n -> b < n -> ~ In a ts -> ~ In b ts ->
  srt (filter (fun e => negb (fst e =? b)) (en_row (nth a R []))) = srt (filter (fun e => negb (fst e =? a)) (en_row (nth b R []))) -> twin n W ts a b.
Proof.
  intros Ha Hb Na Nb E. split; [|split; [|split; [|split]]]; auto. intros x Hx N1 N2. rewrite !W_row.
  assert (P : Permutation (filter (fun e => negb (fst e =? b)) (en_row (nth a R []))) (filter (fun e => negb (fst e =? a)) (en_row (nth b R [])))).
  { rewrite <- SP, E. apply SP. }
  apply (perm_filter (fun e : nat * N => fst e =? x)) in P. rewrite !filter_filter_sub in P; [apply sumN_perm; auto| |].
  - intros [t w] Q. cbn [fst] in *. apply Nat.eqb_eq in Q. subst t. destruct (Nat.eqb_spec x a); [contradiction|reflexivity].
  - intros [t w] Q. cbn [fst] in *. apply Nat.eqb_eq in Q. subst t. destruct (Nat.eqb_spec x b); [contradiction|reflexivity].
Qed.
End Sort.
End Rows.

Lemma cand_facts G ts active nd v : en_cand G ts active nd v = true -> ~ In v ts /\ nth v (m_rows G) [] <> [].
Proof.
  unfold en_cand. rewrite !Bool.andb_true_iff, Bool.negb_true_iff, isterm_out, Nat.ltb_lt. intros [[[_ A] _] B]. split; [auto|]. intro E. rewrite E in B. cbn in B. lia.
Qed.

(** ** the rule *)
Section Rule.
Context (G : mg) (ts : list nat) (MV : mvalid G) (srt : list (nat * N) -> list (nat * N)) (SP : forall l, Permutation (srt l) l).
Context (hash : nat -> N) (active : nat -> bool) (nd : nat).
Let n := m_n G.
Let R := m_rows G.
Let W := wt (adj R).
(** candidates with the same seed have the same number of edges *)
Hypothesis NC : forall a b, a < n -> b < n -> en_cand G ts active nd a = true -> en_cand G ts active nd b = true ->
  en_seed hash (nth a R []) = en_seed hash (nth b R []) -> length (nth a R []) = length (nth b R []).

Definition twins (ps : list (nat * nat)) : Prop := forall a b, In (a, b) ps -> twin n W ts a b.
Lemma twins_add ps a b : twins ps -> twin n W ts a b -> twins (ps ++ [(a, b)]).
Proof. intros T H x y I. apply in_app_or in I. destruct I as [I|[I|[]]]; [auto|]. injection I as <- <-. auto. Qed.
Lemma edges_add ps a b : edges_only R ps -> nth a R [] <> [] -> nth b R [] <> [] -> edges_only R (ps ++ [(a, b)]).
Proof. intros E A B x y I. apply in_app_or in I. destruct I as [I|[I|[]]]; [auto|]. injection I as <- <-. auto. Qed.

Definition res_ok (results : list (N * nat)) : Prop :=
  forall s o, In (s, o) results -> o < n /\ en_cand G ts active nd o = true /\ s = en_seed hash (nth o R []).

Lemma row_len v : length (en_row (nth v R [])) = length (nth v R []).
Proof. apply map_length. Qed.
Lemma srt_len l : length (srt l) = length l.
Proof. apply Permutation_length, SP. Qed.

Lemma non_node_ok v results u ps : v < n -> res_ok results -> inv n ps u -> twins ps -> edges_only R ps ->
  exists results' u' ps', en_non_node hash srt G ts active nd (results, u) v = Some (results', u') /\ res_ok results' /\ inv n ps' u' /\ twins ps' /\ edges_only R ps'.
Proof.
  intros Hv RO I TP EO. unfold en_non_node. destruct (en_cand G ts active nd v) eqn:CV; [|exists results, u, ps; auto].
  destruct (find (fun p => (fst p =? en_seed hash (nth v (m_rows G) []))%N) results) as [[s o]|] eqn:EF.
  - apply find_some in EF. destruct EF as [Io Es]. cbn [fst] in Es. apply N.eqb_eq in Es. destruct (RO s o Io) as (Ho & Co & Eo).
    destruct (cand_facts G ts active nd v CV) as [Nv Rv]. destruct (cand_facts G ts active nd o Co) as [No Ro]. rewrite (proj2 (isterm_out ts o) No).
    assert (L : length (nth v R []) = length (nth o R [])) by (apply NC; auto; unfold R in *; congruence).
    assert (L' : length (srt (en_row (nth v (m_rows G) []))) = length (srt (en_row (nth o (m_rows G) [])))) by (rewrite !srt_len, !row_len; exact L).
    destruct (en_same_some _ _ L') as [r Er]. rewrite Er. destruct r; [|exists results, u, ps; auto].
    apply en_same_true in Er; [|exact L']. destruct (union_inv n ps u v o I Hv Ho) as (u' & b & -> & I' & _). cbn [option_map fst].
    exists results, u', (ps ++ [(v, o)]). split; [reflexivity|]. split; [auto|]. split; [auto|]. split; [|apply edges_add; auto].
    apply twins_add; auto. apply (same_twin R srt SP ts v o); auto.
  - exists ((en_seed hash (nth v (m_rows G) []), v) :: results), u, ps. split; [reflexivity|]. split; [|auto]. intros s o [E|H]; [injection E as <- <-; auto|auto].
Qed.

Lemma non_ok : forall ns results u ps, (forall v, In v ns -> v < n) -> res_ok results -> inv n ps u -> twins ps -> edges_only R ps ->
  exists results' u' ps', en_non hash srt G ts active nd ns (results, u) = Some (results', u') /\ inv n ps' u' /\ twins ps' /\ edges_only R ps'.
Proof.
  induction ns as [|v ns IH]; intros results u ps Hn RO I TP EO; [exists results, u, ps; auto|]. cbn [en_non].
  destruct (non_node_ok v results u ps (Hn v (or_introl eq_refl)) RO I TP EO) as (r1 & u1 & ps1 & -> & RO1 & I1 & TP1 & EO1).
  apply (IH r1 u1 ps1); auto. intros x Hx. apply Hn. right. auto.
Qed.

Lemma nb_edges_ok v : v < n -> en_cand G ts active nd v = true -> forall es u ps, incl es (nth v R []) -> inv n ps u -> twins ps -> edges_only R ps ->
  exists u' ps', en_nb_edges srt G ts v es u = Some u' /\ inv n ps' u' /\ twins ps' /\ edges_only R ps'.
Proof.
  intros Hv CV. pose proof MV as [VR _]. destruct (cand_facts G ts active nd v CV) as [Nv Rv]. induction es as [|[[o w] r] es IH]; intros u ps IE I TP EO; [exists u, ps; auto|]. cbn [en_nb_edges].
  assert (IE' : incl es (nth v R [])) by (intros h Hh; apply IE; right; auto).
  destruct (negb (isterm ts o) && (length (nth v (m_rows G) []) =? length (nth o (m_rows G) [])) && (nth v (m_deg G) 0 =? nth o (m_deg G) 0)%N) eqn:Q; [|apply (IH u ps); auto].
  apply andb_prop in Q. destruct Q as [Q _]. apply andb_prop in Q. destruct Q as [No L]. apply Bool.negb_true_iff, isterm_out in No. apply Nat.eqb_eq in L.
  assert (Iv : In (o, w, r) (nth v R [])) by (apply IE; left; auto). destruct (row_target R VR v o w r Iv) as [Ho Nov]. fold n in Ho.
  assert (LL : length (filter (fun e => negb (fst e =? o)) (en_row (nth v R []))) = length (filter (fun e => negb (fst e =? v)) (en_row (nth o R [])))).
  { pose proof (filter_neg_length (fun e => fst e =? o) (en_row (nth v R []))) as A. pose proof (filter_neg_length (fun e => fst e =? v) (en_row (nth o R []))) as B.
    pose proof (count_symm R VR v o Hv Ho) as C. rewrite !row_len in *. fold R in L. lia. }
  fold R. rewrite <- (srt_len (filter (fun e => negb (fst e =? o)) (en_row (nth v R [])))), <- (srt_len (filter (fun e => negb (fst e =? v)) (en_row (nth o R [])))) in LL.
  destruct (en_same_some _ _ LL) as [q Eq]. rewrite Eq. destruct q; [|apply (IH u ps); auto]. apply en_same_true in Eq; [|exact LL].
  destruct (union_inv n ps u v o I Hv Ho) as (u' & b & -> & I' & _). apply (IH u' (ps ++ [(v, o)])); auto.
  - apply twins_add; auto. apply (same_twin_nb R srt SP ts v o); auto.
  - apply edges_add; auto. fold R in L. intro E. rewrite E in L. destruct (nth v R []); [contradiction|discriminate L].
Qed.

Lemma nb_ok : forall ns u ps, (forall v, In v ns -> v < n) -> inv n ps u -> twins ps -> edges_only R ps ->
  exists u' ps', en_nb srt G ts active nd ns u = Some u' /\ inv n ps' u' /\ twins ps' /\ edges_only R ps'.
Proof.
  induction ns as [|v ns IH]; intros u ps Hn I TP EO; [exists u, ps; auto|]. cbn [en_nb].
  assert (Hv : v < n) by (apply Hn; left; auto). assert (Hn' : forall x, In x ns -> x < n) by (intros x Hx; apply Hn; right; auto).
  destruct (en_cand G ts active nd v) eqn:CV; [|apply IH with (ps := ps); auto].
  destruct (nb_edges_ok v Hv CV (nth v R []) u ps (incl_refl _) I TP EO) as (u1 & ps1 & E1 & I1 & TP1 & EO1). fold R. rewrite E1. apply (IH u1 ps1); auto.
Qed.

Theorem equal_neighborhoods_ok : exists u ps, equal_neighborhoods hash srt G ts active nd = Some u /\ inv n ps u /\ twins ps /\ safe_pairs n W ts (conn ps) /\ edges_only R ps.
Proof.
  unfold equal_neighborhoods. fold n. assert (HS : forall v, In v (seq 0 n) -> v < n) by (intros v Hv; apply in_seq in Hv; lia).
  destruct (non_ok (seq 0 n) [] (uf_init n) [] HS) as (r1 & u1 & ps1 & -> & I1 & TP1 & EO1).
  - intros ? ? [].
  - apply inv_init.
  - intros ? ? [].
  - intros ? ? [].
  - destruct (nb_ok (seq 0 n) u1 ps1 HS I1 TP1 EO1) as (u & ps & -> & I & TP & EO). exists u, ps. do 3 (split; [auto|]). split; [|auto].
    apply twin_pairs_safe; auto. apply W_symm, MV.
Qed.
End Rule.
