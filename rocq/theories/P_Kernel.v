(* P_Kernel.v - safety of the local kernelization rules. *)
From Verif Require Import SpecRel P_UnionFind P_Cut P_Mutable P_MutableIO P_PRTests P_Multi.
From Verif Require Export M_Kernel.

Lemma isterm_In ts v : isterm ts v = true <-> In v ts.
Proof. unfold isterm. rewrite existsb_exists. split; [intros [x [H E]]; apply Nat.eqb_eq in E; subst; auto|]. intro H. exists v. split; [auto|apply Nat.eqb_refl]. Qed.
Lemma isterm_out ts v : isterm ts v = false <-> ~ In v ts.
Proof. rewrite <- isterm_In. destruct (isterm ts v); split; congruence. Qed.

(** a terminal in block b is the b-th terminal *)
Lemma term_block n ts f t : separates n ts f -> In t ts -> t = nth (f t) ts 0.
Proof. intros [_ B] H. destruct (In_nth ts t 0 H) as (i & Hi & <-). rewrite (B i Hi). reflexivity. Qed.

Lemma NoDup_app_l {A} (l l' : list A) : NoDup (l ++ l') -> NoDup l.
Proof.
  induction l as [|a l IH]; intro H; [constructor|]. inversion H as [|? ? X Y]. subst. constructor; [intro Z; apply X, in_or_app; auto|auto].
Qed.

Lemma app_mid {A} (l : list A) x l' : l ++ x :: l' = (l ++ [x]) ++ l'.
Proof. rewrite <- app_assoc. reflexivity. Qed.

(** only vertices that have an edge are merged *)
Definition edges_only (R : list (list half)) (ps : list (nat * nat)) : Prop :=
  forall a b, In (a, b) ps -> nth a R [] <> [] /\ nth b R [] <> [].
Lemma edges_only_add R ps v e t w r : valid_rows R -> slot R v e = Some (t, w, r) -> edges_only R ps -> edges_only R (ps ++ [(v, t)]).
Proof.
  intros V S E a b H. apply in_app_or in H. destruct H as [H|[H|[]]]; [apply E; auto|]. injection H as <- <-.
  pose proof (V v e t w r S) as (_ & _ & X). unfold slot in S. split; intro Z; rewrite Z in *; [destruct e|destruct r]; discriminate.
Qed.

Section Rows.
Context (R : list (list half)) (V : valid_rows R).
Let n := length R.
Let W := wt (adj R).

Lemma att_row f x b : att n W f x b = sumN (fun h : half => if Nat.eqb (f (fst (fst h))) b then snd (fst h) else 0%N) (nth x R []).
Proof.
  unfold att.
  transitivity (bsum n (fun v => sumN (fun h : half => if Nat.eqb v (fst (fst h)) then (if Nat.eqb (f v) b then snd (fst h) else 0%N) else 0%N) (nth x R []))).
  - apply bsum_ext. intros v Hv. unfold W, wt. rewrite adj_nth, sumN_filter, sumN_map. cbn [fst snd].
    destruct (Nat.eqb_spec v x) as [->|Nv].
    + symmetry. apply sumN_zero. intros [[t w] r] H. cbn [fst snd]. apply In_nth_error in H. destruct H as [e H]. destruct (V x e t w r H) as [_ [N _]].
      destruct (Nat.eqb_spec x t); [congruence|reflexivity].
    + destruct (f v =? b).
      * apply sumN_ext. intros h _. rewrite (Nat.eqb_sym v). destruct (fst (fst h) =? v); reflexivity.
      * symmetry. apply sumN_zero. intros h _. destruct (v =? fst (fst h)); reflexivity.
  - unfold bsum. rewrite sumN_swap. apply sumN_ext. intros [[t w] r] H. cbn [fst snd]. apply In_nth_error in H. destruct H as [e H]. destruct (V x e t w r H) as [T _].
    exact (bsum_single n (fun v => if Nat.eqb (f v) b then w else 0%N) t T).
Qed.

Lemma W_symm : symm n W. Proof. apply valid_symm. exact V. Qed.

Lemma row_target x t w r : In (t, w, r) (nth x R []) -> t < n /\ t <> x.
Proof. intro H. apply In_nth_error in H. destruct H as [e H]. destruct (V x e t w r H) as [A [B _]]. auto. Qed.

(** the heavier half of the degree *)
Lemma heavy_move x t w r f : In (t, w, r) (nth x R []) -> (sumN (fun h : half => snd (fst h)) (nth x R []) <= 2 * w)%N ->
  f x <> f t -> (att n W f x (f x) <= att n W f x (f t))%N.
Proof.
  intros H D N'. rewrite !att_row.
  assert (A : (w <= sumN (fun h : half => if Nat.eqb (f (fst (fst h))) (f t) then snd (fst h) else 0%N) (nth x R []))%N).
  { pose proof (sumN_In_le (fun h : half => if Nat.eqb (f (fst (fst h))) (f t) then snd (fst h) else 0%N) _ _ H) as X. cbn [fst snd] in X. rewrite Nat.eqb_refl in X. auto. }
  assert (B : (sumN (fun h : half => if Nat.eqb (f (fst (fst h))) (f x) then snd (fst h) else 0%N) (nth x R []) +
               sumN (fun h : half => if Nat.eqb (f (fst (fst h))) (f t) then snd (fst h) else 0%N) (nth x R []) <=
               sumN (fun h : half => snd (fst h)) (nth x R []))%N).
  { rewrite <- sumN_add. apply sumN_le. intros h _. destruct (Nat.eqb_spec (f (fst (fst h))) (f x)), (Nat.eqb_spec (f (fst (fst h))) (f t)); first [lia|congruence]. }
  lia.
Qed.
End Rows.

(** ** highDegreeContraction *)
Section High.
Context (G : mg) (ts : list nat) (active : nat -> bool) (MV : mvalid G) (HT : forall t, In t ts -> t < m_n G)
        (NP : forall u, NoDup (map (fun h : half => fst (fst h)) (nth u (m_rows G) []))).
Let n := m_n G.
Let R := m_rows G.
Let W := wt (adj R).

Record scan (pre : list half) (nonterm maxw : N) (maxt : nat) (second : N) : Prop := {
  s_non : nonterm = sumN (fun h : half => if isterm ts (fst (fst h)) then 0%N else snd (fst h)) pre;
  s_max : forall t w r, In (t, w, r) pre -> isterm ts t = true -> (w <= maxw)%N /\ (t <> maxt -> (w <= second)%N);
  s_le : (second <= maxw)%N;
  s_in : (maxw > 0)%N -> isterm ts maxt = true /\ exists r, In (maxt, maxw, r) pre }.

Lemma scan_step pre t w r nonterm maxw maxt second : scan pre nonterm maxw maxt second ->
  NoDup (map (fun h : half => fst (fst h)) (pre ++ [(t, w, r)])) ->
  let '(maxw', maxt', second') :=
        if isterm ts t then
          if (maxw <? w)%N then (w, t, maxw) else if (second <? w)%N then (maxw, maxt, w) else (maxw, maxt, second)
        else (maxw, maxt, second) in
  scan (pre ++ [(t, w, r)]) (if isterm ts t then nonterm else (nonterm + w)%N) maxw' maxt' second'.
Proof.
  intros [S1 S2 S3 S4] ND.
  assert (NON : (if isterm ts t then nonterm else (nonterm + w)%N) = sumN (fun h : half => if isterm ts (fst (fst h)) then 0%N else snd (fst h)) (pre ++ [(t, w, r)])).
  { rewrite sumN_app. cbn. rewrite <- S1. destruct (isterm ts t); lia. }
  assert (NT : forall w' r', In (t, w', r') pre -> False).
  { intros w' r' H. rewrite map_app in ND. cbn in ND. apply NoDup_remove_2 in ND. apply ND. rewrite app_nil_r. apply in_map_iff. exists (t, w', r'). auto. }
  destruct (isterm ts t) eqn:T.
  - destruct (N.ltb_spec maxw w) as [L|L]; [|destruct (N.ltb_spec second w) as [L2|L2]].
    + constructor; auto; [| lia |].
      * intros t' w' r' H T'. apply in_app_or in H. destruct H as [H|[H|[]]].
        -- destruct (S2 t' w' r' H T') as [A B]. split; [lia|]. auto.
        -- injection H as <- <- <-. split; [lia|]. congruence.
      * intros _. split; [auto|]. exists r. apply in_or_app. right. left. auto.
    + constructor; auto.
      * intros t' w' r' H T'. apply in_app_or in H. destruct H as [H|[H|[]]].
        -- destruct (S2 t' w' r' H T') as [A B]. split; [lia|]. intro X. specialize (B X). lia.
        -- injection H as <- <- <-. split; [lia|]. lia.
      * intros Z. destruct (S4 Z) as [A [r' B]]. split; [auto|]. exists r'. apply in_or_app. auto.
    + constructor; auto.
      * intros t' w' r' H T'. apply in_app_or in H. destruct H as [H|[H|[]]]; [eauto|].
        injection H as <- <- <-. split; [lia|]. lia.
      * intros Z. destruct (S4 Z) as [A [r' B]]. split; [auto|]. exists r'. apply in_or_app. auto.
  - constructor; auto.
    + intros t' w' r' H T'. apply in_app_or in H. destruct H as [H|[H|[]]]; [eauto|]. injection H as <- <- <-. congruence.
    + intros Z. destruct (S4 Z) as [A [r' B]]. split; [auto|]. exists r'. apply in_or_app. auto.
Qed.

Lemma high_scan_ok dn : forall row pre nonterm maxw maxt second, scan pre nonterm maxw maxt second ->
  NoDup (map (fun h : half => fst (fst h)) (pre ++ row)) ->
  match high_scan row dn ts nonterm maxw maxt second with
  | inl t => exists w r, In (t, w, r) row /\ (dn <= 2 * w)%N
  | inr (nt', mw', mt', sc') => scan (pre ++ row) nt' mw' mt' sc'
  end.
Proof.
  induction row as [|[[t w] r] row IH]; intros pre nonterm maxw maxt second S ND; cbn [high_scan].
  - rewrite app_nil_r. auto.
  - assert (ND' : NoDup (map (fun h : half => fst (fst h)) (pre ++ [(t, w, r)]))).
    { rewrite (app_mid pre (t, w, r) row) in ND. rewrite map_app in ND. exact (NoDup_app_l _ _ ND). }
    pose proof (scan_step pre t w r nonterm maxw maxt second S ND') as S'.
    destruct (if isterm ts t then if (maxw <? w)%N then (w, t, maxw) else if (second <? w)%N then (maxw, maxt, w) else (maxw, maxt, second) else (maxw, maxt, second)) as [[mw mt] sc].
    destruct (N.leb_spec dn (w * 2)) as [L|L].
    + exists w, r. split; [left; auto|lia].
    + rewrite (app_mid pre (t, w, r) row) in *.
      specialize (IH _ _ _ _ _ S' ND). destruct (high_scan row dn ts (if isterm ts t then nonterm else (nonterm + w)%N) mw mt sc) as [t'|[[[a b] c] d]]; [|auto].
      destruct IH as (w' & r' & A & B). exists w', r'. split; [right; auto|auto].
Qed.

Lemma one_entry (q : nat) (c : N) : forall row : list half, NoDup (map (fun h : half => fst (fst h)) row) ->
  (forall w r, In (q, w, r) row -> (w <= c)%N) -> (sumN (fun h : half => if Nat.eqb (fst (fst h)) q then snd (fst h) else 0%N) row <= c)%N.
Proof.
  induction row as [|[[t w] r] row IH]; intros ND H; cbn; [lia|]. inversion ND as [|? ? A B]. subst. destruct (Nat.eqb_spec t q) as [->|N'].
  - rewrite sumN_zero; [specialize (H w r (or_introl eq_refl)); lia|]. intros [[t' w'] r'] I. cbn. destruct (Nat.eqb_spec t' q) as [->|]; [|auto].
    exfalso. apply A. cbn. apply in_map_iff. exists (q, w', r'). auto.
  - rewrite N.add_0_l. apply IH; auto. intros w' r' I. apply (H w' r'). right. auto.
Qed.

(** dominated by the heaviest terminal *)
Lemma term_move x nonterm maxw maxt second f : scan (nth x R []) nonterm maxw maxt second -> (nonterm + second < maxw)%N ->
  separates n ts f -> f x <> f maxt -> (att n W f x (f x) <= att n W f x (f maxt))%N.
Proof.
  intros S L F N'. pose proof MV as [V _]. pose proof (att_row R V f x) as E. unfold n, W, m_n. fold R in E |- *. rewrite !E. clear E.
  destruct (s_in _ _ _ _ _ S ltac:(lia)) as [T [r I]].
  assert (A : (maxw <= sumN (fun h : half => if Nat.eqb (f (fst (fst h))) (f maxt) then snd (fst h) else 0%N) (nth x R []))%N).
  { pose proof (sumN_In_le (fun h : half => if Nat.eqb (f (fst (fst h))) (f maxt) then snd (fst h) else 0%N) _ _ I) as X. cbn [fst snd] in X. rewrite Nat.eqb_refl in X. auto. }
  set (q := nth (f x) ts 0).
  assert (B : (sumN (fun h : half => if Nat.eqb (f (fst (fst h))) (f x) then snd (fst h) else 0%N) (nth x R []) <=
     sumN (fun h : half => if isterm ts (fst (fst h)) then 0%N else snd (fst h)) (nth x R []) +
     sumN (fun h : half => if (Nat.eqb (fst (fst h)) q && isterm ts q && negb (Nat.eqb q maxt))%bool then snd (fst h) else 0%N) (nth x R []))%N).
  { rewrite <- sumN_add. apply sumN_le. intros [[t w] r'] H. cbn [fst snd]. destruct (Nat.eqb_spec (f t) (f x)) as [E|E]; [|lia].
    destruct (isterm ts t) eqn:Tt; [|lia]. apply isterm_In in Tt. pose proof (term_block n ts f t F Tt) as Q. rewrite E in Q. fold q in Q. subst t.
    rewrite Nat.eqb_refl. apply isterm_In in Tt. rewrite Tt. destruct (Nat.eqb_spec q maxt) as [X|X]; [congruence|]. cbn. lia. }
  assert (C : (sumN (fun h : half => if (Nat.eqb (fst (fst h)) q && isterm ts q && negb (Nat.eqb q maxt))%bool then snd (fst h) else 0%N) (nth x R []) <= second)%N).
  { destruct (isterm ts q && negb (Nat.eqb q maxt))%bool eqn:Q.
    - apply andb_true_iff in Q. destruct Q as [Q1 Q2]. apply negb_true_iff, Nat.eqb_neq in Q2.
      rewrite (sumN_ext _ (fun h : half => if Nat.eqb (fst (fst h)) q then snd (fst h) else 0%N)).
      + apply one_entry; [apply NP|]. intros w r' H. apply (s_max _ _ _ _ _ S q w r' H Q1). auto.
      + intros h _. rewrite Q1. destruct (Nat.eqb_spec q maxt); [congruence|]. cbn. rewrite !andb_true_r. reflexivity.
    - rewrite sumN_zero; [lia|]. intros h _. rewrite <- andb_assoc, Q, andb_false_r. reflexivity. }
  rewrite <- (s_non _ _ _ _ _ S) in B. lia.
Qed.

Lemma high_node_ok v ps u Rt : v < n -> inv n ps u -> kinv n W ts ps Rt -> edges_only R ps -> Rt v ->
  exists ps' u' Rt', high_node G ts active u v = Some u' /\ inv n ps' u' /\ kinv n W ts ps' Rt' /\ edges_only R ps' /\ forall r, Rt r -> r <> v -> Rt' r.
Proof.
  intros Hv I K EO Rv. pose proof MV as [V [[LD D] _]]. unfold high_node. destruct (active v); [|exists ps, u, Rt; auto]. cbn [negb].
  destruct (isterm ts v) eqn:T; [exists ps, u, Rt; auto|]. apply isterm_out in T.
  destruct (find_conn n ps u v I Hv) as (u1 & r & -> & I1 & Hr & _). destruct (negb (r =? v)); [exists ps, u1, Rt; auto|].
  assert (Sy : symm n W) by (apply W_symm; auto).
  assert (ND : NoDup (map (fun h : half => fst (fst h)) ([] ++ nth v (m_rows G) []))) by apply NP.
  assert (S0 : scan [] 0 0 0 0) by (constructor; [reflexivity|intros ? ? ? []|lia|lia]).
  pose proof (high_scan_ok (nth v (m_deg G) 0%N) (nth v (m_rows G) []) [] 0%N 0%N 0 0%N S0 ND) as H.
  destruct (high_scan (nth v (m_rows G) []) (nth v (m_deg G) 0%N) ts 0 0 0 0) as [t|[[[nt mw] mt] sc]].
  - destruct H as (w & r' & A & B). destruct (row_target R V v t w r' A) as [Ht _].
    destruct (union_inv n ps u1 v t I1 Hv Ht) as (u2 & b & -> & I2 & _).
    destruct (kinv_move n W ts ps Rt v t K Sy Hv Ht Rv T) as (Rt' & K' & Q).
    + intros f F N'. apply (heavy_move R V v t w r'); auto. fold R in B. rewrite D in B by auto. auto.
    + apply In_nth_error in A. destruct A as [k A]. eexists _, _, _. split; [reflexivity|]. split; [eauto|]. split; [eauto|]. split; [|auto]. eapply edges_only_add; eauto.
  - cbn [app] in H. destruct (N.ltb_spec (nt + sc) mw) as [L|L]; [|exists ps, u1, Rt; auto].
    destruct (s_in _ _ _ _ _ H ltac:(lia)) as [Tm [r' A]]. destruct (row_target R V v mt mw r' A) as [Ht _].
    destruct (union_inv n ps u1 v mt I1 Hv Ht) as (u2 & b & -> & I2 & _).
    destruct (kinv_move n W ts ps Rt v mt K Sy Hv Ht Rv T) as (Rt' & K' & Q).
    + intros f F N'. apply (term_move v nt mw mt sc f H L F N').
    + apply In_nth_error in A. destruct A as [k A]. eexists _, _, _. split; [reflexivity|]. split; [eauto|]. split; [eauto|]. split; [|auto]. eapply edges_only_add; eauto.
Qed.

Lemma high_nodes_ok : forall ns ps u Rt, NoDup ns -> (forall v, In v ns -> v < n) -> inv n ps u -> kinv n W ts ps Rt -> edges_only R ps -> (forall v, In v ns -> Rt v) ->
  exists ps' u' Rt', high_nodes G ts active ns u = Some u' /\ inv n ps' u' /\ kinv n W ts ps' Rt' /\ edges_only R ps'.
Proof.
  induction ns as [|v ns IH]; intros ps u Rt ND Hn I K EO H; [exists ps, u, Rt; auto|]. inversion ND as [|? ? Nv ND']. subst.
  cbn [high_nodes]. destruct (high_node_ok v ps u Rt (Hn v (or_introl eq_refl)) I K EO (H v (or_introl eq_refl))) as (ps1 & u1 & Rt1 & -> & I1 & K1 & EO1 & Q).
  apply (IH ps1 u1 Rt1); auto.
  - intros x Hx. apply Hn. right. auto.
  - intros x Hx. apply Q; [apply H; right; auto|]. intros ->. contradiction.
Qed.

Theorem high_degree_ok : exists u ps, high_degree G ts active = Some u /\ inv n ps u /\ safe_pairs n W ts (conn ps) /\ edges_only R ps.
Proof.
  unfold high_degree. destruct (high_nodes_ok (seq 0 n) [] (uf_init n) (fun _ => True)) as (ps & u & Rt & E & I & K & EO).
  - apply seq_NoDup.
  - intros v H. apply in_seq in H. lia.
  - apply inv_init.
  - apply kinv_init.
  - intros ? ? [].
  - auto.
  - exists u, ps. split; [exact E|]. split; [auto|]. split; [|auto]. eapply kinv_safe; eauto.
Qed.
End High.
