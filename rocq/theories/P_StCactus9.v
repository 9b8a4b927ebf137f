(* P_StCactus9.v - proofs about findSTCactus, part 9: any two vertices of the cactus are separated by a cut of weight c, and
   all edges have weight c or c/2. *)
From Coq Require Import ZArith.
From Verif Require Import SpecCut SpecDyn SpecMutable M_Mutable P_Mutable P_Cut P_LocalSearch2 P_AllMincuts M_StCactus P_Crossing P_StCactus P_StCactus2 P_StCactus3 P_StCactus8.

Section Apart.
Context (c : N) (Pc : (0 < c)%N) (n : nat).
Definition inD (lo nx e x : nat) : Prop := lo <= x < n \/ nx <= x < e.
Definition inDb (lo nx e x : nat) : bool := ((lo <=? x) && (x <? n)) || ((nx <=? x) && (x <? e)).
Lemma inDb_t lo nx e x : inD lo nx e x -> inDb lo nx e x = true.
Proof. unfold inD, inDb. intro H. destruct (Nat.leb_spec lo x), (Nat.ltb_spec x n), (Nat.leb_spec nx x), (Nat.ltb_spec x e); cbn; auto; lia. Qed.
Lemma inDb_f lo nx e x : ~ inD lo nx e x -> inDb lo nx e x = false.
Proof. unfold inD, inDb. intro H. destruct (Nat.leb_spec lo x), (Nat.ltb_spec x n), (Nat.leb_spec nx x), (Nat.ltb_spec x e); cbn; auto; lia. Qed.

(** one link and the chain behind it, whose vertices are q and those of D' *)
Lemma link_apart l p lo' nx' ls e : (l_len l = 0 \/ c = (2 * (c / 2))%N) -> l_p l = p -> chainl c n (l_q l) lo' nx' ls e ->
  (forall x, l_a l <= x < l_a l + l_len l -> ~ inD lo' nx' e x /\ x <> l_q l /\ x <> p) -> ~ inD lo' nx' e p -> p <> l_q l -> ~ inD lo' nx' e (l_q l) ->
  (forall y z, y <> z -> (y = l_q l \/ inD lo' nx' e y) -> (z = l_q l \/ inD lo' nx' e z) -> exists f, f y <> f z /\ tot c f ls = c /\ forall x, ~ inD lo' nx' e x -> f x = f (l_q l)) ->
  let D := fun x => l_a l <= x < l_a l + l_len l \/ x = l_q l \/ inD lo' nx' e x in
  forall y z, y <> z -> (y = p \/ D y) -> (z = p \/ D z) -> exists f : nat -> bool, f y <> f z /\ tot c f (l :: ls) = c /\ forall x, ~ D x -> f x = f p.
Proof.
  intros Ev Ep Ch Bn Np Npq Nq IH D.
  assert (One : forall y z, y <> z -> l_a l <= y < l_a l + l_len l -> exists f : nat -> bool, f y <> f z /\ tot c f (l :: ls) = c /\ forall x, ~ D x -> f x = f p).
  { intros y z N B. exists (Nat.eqb y). split; [rewrite Nat.eqb_refl; destruct (Nat.eqb_spec y z); congruence|]. destruct (Bn y B) as (B1 & B2 & B3). split.
    - unfold tot. cbn [sumN]. fold (tot c (Nat.eqb y) ls). rewrite (chain_flat c Pc n _ _ _ _ _ _ Ch).
      + rewrite N.add_0_r. apply (lw_itv c Pc _ _ y (S y)); auto; try lia; rewrite ?Ep.
        all: intros; repeat match goal with |- context [Nat.eqb ?a ?b] => destruct (Nat.eqb_spec a b) end; cbn; auto; lia.
      + unfold inD in B1. split; intros x Hx; destruct (Nat.eqb_spec y x), (Nat.eqb_spec y (l_q l)); auto; lia.
    - intros x Nx. destruct (Nat.eqb_spec y x) as [->|]; [destruct Nx; left; auto|]. destruct (Nat.eqb_spec y p); auto; lia. }
  assert (Two : forall y z, y = p -> (z = l_q l \/ inD lo' nx' e z) -> exists f : nat -> bool, f y <> f z /\ tot c f (l :: ls) = c /\ forall x, ~ D x -> f x = f p).
  { intros y z -> Hz. set (f := fun x => (x =? l_q l) || inDb lo' nx' e x). exists f.
    assert (Fp : f p = false) by (unfold f; rewrite (inDb_f _ _ _ _ Np); destruct (Nat.eqb_spec p (l_q l)); [contradiction|reflexivity]).
    assert (Fq : f (l_q l) = true) by (unfold f; rewrite Nat.eqb_refl; reflexivity).
    assert (Fz : f z = true) by (unfold f; destruct Hz as [->|Hz]; [rewrite Nat.eqb_refl; reflexivity|rewrite (inDb_t _ _ _ _ Hz); apply orb_true_r]).
    split; [rewrite Fp, Fz; discriminate|]. split.
    - unfold tot. cbn [sumN]. fold (tot c f ls). rewrite (chain_flat c Pc n _ _ _ _ _ _ Ch).
      + rewrite N.add_0_r. apply (lw_pre c _ _ (l_a l + l_len l)); auto; try lia; rewrite ?Ep, ?Fp; [|rewrite Fq; reflexivity].
        intros x Hx. destruct (Bn x Hx) as (B1 & B2 & _). unfold f. rewrite (inDb_f _ _ _ _ B1). destruct (Nat.eqb_spec x (l_q l)); [contradiction|reflexivity].
      + split; intros x Hx; rewrite Fq; unfold f; rewrite (inDb_t lo' nx' e x) by (unfold inD; auto); apply orb_true_r.
    - intros x Nx. rewrite Fp. unfold f. destruct (Nat.eqb_spec x (l_q l)) as [->|]; [destruct Nx; right; left; auto|]. cbn [orb]. apply inDb_f. intro H. apply Nx. right. right. auto. }
  assert (Sym : forall y z, (exists f : nat -> bool, f y <> f z /\ tot c f (l :: ls) = c /\ forall x, ~ D x -> f x = f p) -> exists f : nat -> bool, f z <> f y /\ tot c f (l :: ls) = c /\ forall x, ~ D x -> f x = f p).
  { intros y z (f & A & B). exists f. auto. }
  intros y z N Hy Hz.
  destruct Hy as [Hy|[Hy|Hy]]; [|apply One; auto|]; (destruct Hz as [Hz|[Hz|Hz]]; [|apply Sym, One; auto|]).
  - congruence.
  - apply Two; auto.
  - apply Sym, Two; auto.
  - destruct (IH y z N Hy Hz) as (f & A & B & C). exists f. split; [auto|]. assert (Fp : f p = f (l_q l)) by (apply C; auto). split.
    + unfold tot. cbn [sumN]. fold (tot c f ls). rewrite B, lw_quiet; [lia|]. rewrite <- ?Ep in *. split; [|congruence]. intros x Hx. rewrite Fp. apply C. apply (Bn x Hx).
    + intros x Nx. rewrite Fp. apply C. intro H. apply Nx. right. right. auto.
Qed.

Lemma chain_apart p lo nx ls e : chainl c n p lo nx ls e -> n <= nx -> (p < lo \/ (n <= p /\ p < nx)) ->
  forall y z, y <> z -> (y = p \/ inD lo nx e y) -> (z = p \/ inD lo nx e z) -> exists f : nat -> bool, f y <> f z /\ tot c f ls = c /\ forall x, ~ inD lo nx e x -> f x = f p.
Proof.
  intro Ch. induction Ch as [p nx|p lo nx len ls e L Ch IH Ev|p lo nx len ls e L1 L Ch IH Ev]; intros Nx Hp y z N Hy Hz.
  - unfold inD in *. exfalso. lia.
  - pose proof (chainl_le c Pc _ _ _ _ _ _ Ch) as Le.
    destruct (link_apart (mk_link p lo len (lo + len)) p (S (lo + len)) nx ls e) with (y := y) (z := z) as (f & A & B & C); cbn [l_p l_a l_len l_q]; auto; unfold inD in *; try lia.
    exists f. split; [auto|]. split; [auto|]. intros x Nx'. apply C. cbn [l_p l_a l_len l_q]. lia.
  - pose proof (chainl_le c Pc _ _ _ _ _ _ Ch) as Le.
    destruct (link_apart (mk_link p lo len nx) p (lo + len) (S nx) ls e) with (y := y) (z := z) as (f & A & B & C); cbn [l_p l_a l_len l_q]; auto; unfold inD in *; try lia.
    exists f. split; [auto|]. split; [auto|]. intros x Nx'. apply C. cbn [l_p l_a l_len l_q]. lia.
Qed.
Lemma apart_tot ls e : 1 <= n -> chainl c n 0 1 n ls e -> forall a b, a < e -> b < e -> a <> b -> exists f : nat -> bool, f a <> f b /\ tot c f ls = c.
Proof.
  intros Hn Ch a b Ha Hb N. destruct (chain_apart 0 1 n ls e Ch (le_n n) ltac:(lia) a b N) as (f & A & B & _); unfold inD; try lia. exists f. auto.
Qed.
End Apart.

(** ** the weights of the edges *)
Definition shape (c : N) (M : mg) : Prop :=
  length (m_part M) = m_n M /\ length (m_cut M) = m_n M /\ length (m_cont M) = m_n M /\ forall v t w r, In (t, w, r) (nth v (m_rows M) []) -> w = c \/ (2 * w)%N = c.
Lemma in_push R x (h h' : half) v : In h' (nth v (push R x h) []) -> h' = h \/ In h' (nth v R []).
Proof.
  unfold push. rewrite nth_upd. destruct ((v =? x) && (x <? length R)) eqn:E; [|auto]. intro I. apply in_app_or in I. destruct I as [I|[I|[]]]; [right|left; auto].
  apply andb_true_iff in E. destruct E as [E _]. apply Nat.eqb_eq in E. subst v. auto.
Qed.
Lemma new_edge_shape c M s t w M' : shape c M -> w = c \/ (2 * w)%N = c -> m_new_edge M s t w = Some M' -> shape c M'.
Proof.
  intros (A & B & B2 & C) Hw. unfold m_new_edge. destruct (s <? t); [|intro E; injection E as <-; split; auto]. destruct (t <? m_n M); [|intro E; discriminate E].
  intro E. injection E as <-. unfold shape, m_n in *. cbn [m_part m_cut m_rows m_cont] in *. assert (LP : forall R x (h : half), length (push R x h) = length R) by (intros; unfold push; apply upd_length). rewrite !LP. split; [auto|]. split; [auto|]. split; [auto|].
  intros v t' w' r I. apply in_push in I. destruct I as [I|I]; [inversion I; subst; auto|]. apply in_push in I. destruct I as [I|I]; [inversion I; subst; auto|]. eapply C; eauto.
Qed.
Lemma order_shape c M s t w M' : shape c M -> w = c \/ (2 * w)%N = c -> new_edge_order M s t w = Some M' -> shape c M'.
Proof.
  intros H Hw. unfold new_edge_order. destruct (s <? t); [apply new_edge_shape; auto|]. destruct (t <? s); [apply new_edge_shape; auto|]. intro E. injection E as <-. auto.
Qed.
Lemma path_shape c w : w = c \/ (2 * w)%N = c -> forall xs p M M', shape c M -> sc_path w p xs M = Some M' -> shape c M'.
Proof.
  intros Hw. induction xs as [|x xs IH]; intros p M M' H; cbn [sc_path]; [intro E; injection E as <-; auto|].
  destruct (new_edge_order M p x w) as [M1|] eqn:E; [|intro Q; discriminate Q]. apply IH. eapply order_shape; eauto.
Qed.
Lemma empty_shape c M : shape c M -> shape c (new_empty_node M).
Proof.
  intros (A & B & B2 & C). unfold new_empty_node. destruct (m_last M =? m_n M); [|split; auto]. unfold shape, m_n in *. cbn [m_part m_cut m_rows m_cont]. rewrite !app_length, A, B, B2. split; [auto|]. split; [auto|]. split; [auto|].
  intros v t w r I. destruct (Nat.lt_ge_cases v (length (m_rows M))) as [L|L]; [rewrite app_nth1 in I by auto; eapply C; eauto|].
  rewrite app_nth2 in I by auto. destruct (v - length (m_rows M)) as [|[|?]]; cbn in I; contradiction.
Qed.
Lemma links_shape c n its i : items c n i its -> forall prev M M', shape c M -> sc_links c its prev M = Some M' -> shape c M'.
Proof.
  intro H. induction H as [|i its Hi H IH|i len its Hl Hi Ev H IH]; intros prev M M' S E.
  - cbn in E. injection E as <-. auto.
  - cbn [sc_links] in E. destruct its as [|[y|ys] its']; [injection E as <-; auto| |eapply IH; eauto].
    destruct (new_edge_order M i y c) as [M1|] eqn:E1; [|discriminate E]. eapply IH; [|exact E]. eapply order_shape; eauto.
  - cbn [sc_links] in E.
    assert (Hc : (c / 2)%N = c \/ (2 * (c / 2))%N = c) by (right; auto).
    destruct (match its with ItB y :: _ => (y, M) | _ => (m_last M, new_empty_node M) end) as [next M1] eqn:EN.
    assert (S1 : shape c M1) by (destruct its as [|[y|ys] its']; injection EN as <- <-; auto using empty_shape).
    destruct (sc_path (c / 2) prev (seq i len ++ [next]) M1) as [M2|] eqn:E2; [|discriminate E].
    destruct (new_edge_order M2 prev next (c / 2)) as [M3|] eqn:E3; [|discriminate E]. eapply IH; [|exact E]. eapply order_shape; [|exact Hc|exact E3]. eapply path_shape; eauto.
Qed.

Lemma fill_same C e M M' : sc_fill C M e = Some M' -> m_part M' = m_part M /\ m_cut M' = m_cut M /\ m_rows M' = m_rows M /\ length (m_cont M') = length (m_cont M).
Proof.
  unfold sc_fill. destruct (nth_error (m_cont C) (snd e)) as [l|]; [|intro Q; discriminate Q]. unfold set_cont. destruct (fst e <? length (m_cont M)); [|intro Q; discriminate Q].
  set (M1 := mk_mg _ _ _ _ _ _ _ _ _ _). intro E. assert (G : forall l M1 M', fold_opt (fun M x => set_pos M x (fst e)) l M1 = Some M' -> m_part M' = m_part M1 /\ m_cut M' = m_cut M1 /\ m_rows M' = m_rows M1 /\ length (m_cont M') = length (m_cont M1)).
  { clear. induction l as [|x l IH]; intros M1 M' E; cbn [fold_opt] in E; [injection E as <-; auto|]. unfold set_pos in E at 1. destruct (x <? length (m_pos M1)); [|discriminate E]. apply IH in E. exact E. }
  apply G in E. unfold M1 in E. cbn [m_part m_cut m_rows m_cont] in E. rewrite upd_length in E. exact E.
Qed.
Lemma vertices_shape c C ord M : sc_vertices C ord = Some M -> shape c M.
Proof.
  unfold sc_vertices. rewrite nodes_iter by auto. set (M0 := mk_mg _ _ _ _ _ _ _ _ _ _).
  assert (G : forall l M0 M', fold_opt (sc_fill C) l M0 = Some M' -> m_part M' = m_part M0 /\ m_cut M' = m_cut M0 /\ m_rows M' = m_rows M0 /\ length (m_cont M') = length (m_cont M0)).
  { clear. induction l as [|x l IH]; intros M0 M' E; cbn [fold_opt] in E; [injection E as <-; auto|]. destruct (sc_fill C M0 x) as [M1|] eqn:E1; [|discriminate E].
    apply IH in E. apply fill_same in E1. destruct E as (A & B & D & F), E1 as (A1 & B1 & D1 & F1). split; [congruence|]. split; [congruence|]. split; congruence. }
  destruct (fold_opt (sc_fill C) _ M0) as [M1|] eqn:E; [|intro Q; discriminate Q]. cbn [option_map]. intro Q. injection Q as <-. apply G in E. destruct E as (A & B & D & F).
  unfold shape, m_n. cbn [m_finish m_part m_cut m_rows m_cont]. rewrite A, B, D, F. unfold M0. cbn [m_part m_cut m_rows m_cont]. rewrite !repeat_length, map_length, seq_length. split; [auto|]. split; [auto|]. split; [auto|].
  intros v t w r I. exfalso. destruct (Nat.lt_ge_cases v (m_n C)); [rewrite nth_repeat in I|rewrite nth_overflow in I by (rewrite repeat_length; auto)]; contradiction.
Qed.
