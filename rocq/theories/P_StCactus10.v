(* P_StCactus10.v - proofs about findSTCactus, part 10: the cactus has no parallel edges. *)
From Verif Require Import SpecCut SpecDyn SpecMutable M_Mutable P_Mutable P_Cut P_LocalSearch P_LocalSearch2 P_AllMincuts M_StCactus P_Crossing P_StCactus P_StCactus2 P_StCactus3 P_StCactus7 P_StCactus8 P_StCactus9.

Lemma order_tgts M a b w : mvalid M -> a <> b -> a < m_n M -> b < m_n M -> exists M', new_edge_order M a b w = Some M' /\ mvalid M' /\ m_n M' = m_n M /\ m_last M' = m_last M /\
  forall x, tgts (nth x (m_rows M') []) = tgts (nth x (m_rows M) []) ++ (if x =? a then [b] else if x =? b then [a] else []).
Proof.
  intros V Nab Ha Hb. assert (X : exists M', new_edge_order M a b w = Some M' /\ mvalid M' /\ m_n M' = m_n M /\ forall x, tgts (nth x (m_rows M') []) = tgts (nth x (m_rows M) []) ++ (if x =? a then [b] else if x =? b then [a] else [])).
  { unfold new_edge_order. destruct (Nat.ltb_spec a b) as [L|L].
    - destruct (new_edge_more M a b w V L Hb) as (M' & E & V' & N' & _ & _ & _ & _ & T). exists M'. split; [auto|]. split; [auto|]. split; [auto|].
      intro x. rewrite T. f_equal. unfold near. cbn [fst snd]. rewrite (Nat.eqb_sym a x), (Nat.eqb_sym b x). reflexivity.
    - destruct (Nat.ltb_spec b a) as [L'|]; [|lia]. destruct (new_edge_more M b a w V L' Ha) as (M' & E & V' & N' & _ & _ & _ & _ & T). exists M'. split; [auto|]. split; [auto|]. split; [auto|].
      intro x. rewrite T. f_equal. unfold near. cbn [fst snd]. rewrite (Nat.eqb_sym a x), (Nat.eqb_sym b x). destruct (Nat.eqb_spec x b), (Nat.eqb_spec x a); auto; congruence. }
  destruct X as (M' & E & V' & N' & T). exists M'. split; [auto|]. split; [auto|]. split; [auto|]. split; [apply (order_more _ _ _ _ _ E)|auto].
Qed.
Lemma back_tgt M a b : mvalid M -> In b (tgts (nth a (m_rows M) [])) -> In a (tgts (nth b (m_rows M) [])).
Proof.
  intros [V _] I. unfold tgts in I. apply in_map_iff in I as ([[t w] r] & E & I). cbn in E. subst t. apply In_nth_error in I as (e & I).
  destruct (V a e b w r) as (_ & _ & S); [exact I|]. unfold tgts. apply in_map_iff. exists (a, w, e). split; [reflexivity|]. eapply nth_error_In. exact S.
Qed.
Lemma order_nopar M a b w M' : mvalid M -> a <> b -> a < m_n M -> b < m_n M -> no_parallel (m_rows M) -> ~ In a (tgts (nth b (m_rows M) [])) -> new_edge_order M a b w = Some M' ->
  no_parallel (m_rows M') /\ mvalid M' /\ m_n M' = m_n M /\ m_last M' = m_last M /\ forall x, tgts (nth x (m_rows M') []) = tgts (nth x (m_rows M) []) ++ (if x =? a then [b] else if x =? b then [a] else []).
Proof.
  intros V Nab Ha Hb NP Nb E. destruct (order_tgts M a b w V Nab Ha Hb) as (M1 & E1 & V1 & N1 & L1 & T). rewrite E in E1. injection E1 as <-. split; [|auto]. intro x. fold (tgts (nth x (m_rows M') [])). rewrite T.
  pose proof (NP x) as D. fold (tgts (nth x (m_rows M) [])) in D. destruct (Nat.eqb_spec x a) as [->|]; [|destruct (Nat.eqb_spec x b) as [->|]; [|rewrite app_nil_r; auto]].
  - apply (Permutation_NoDup (l := b :: tgts (nth a (m_rows M) []))); [apply Permutation_cons_append|]. constructor; [|auto]. intro I. apply Nb. apply back_tgt; auto.
  - apply (Permutation_NoDup (l := a :: tgts (nth b (m_rows M) []))); [apply Permutation_cons_append|]. constructor; auto.
Qed.

Lemma path_nopar w : forall xs p M M', NoDup (p :: xs) -> p < m_n M -> (forall x, In x xs -> x < m_n M) -> mvalid M -> no_parallel (m_rows M) -> (forall x, In x xs -> tgts (nth x (m_rows M) []) = []) -> sc_path w p xs M = Some M' ->
  no_parallel (m_rows M') /\ mvalid M' /\ m_n M' = m_n M /\ m_last M' = m_last M /\ (forall y, ~ In y (p :: xs) -> tgts (nth y (m_rows M') []) = tgts (nth y (m_rows M) [])) /\
  (forall ys z q, xs = ys ++ [z] -> In q (tgts (nth z (m_rows M') [])) -> q = last ys p).
Proof.
  induction xs as [|x xs IH]; intros p M M' ND Hp Bx V NP Em E; cbn [sc_path] in E.
  - injection E as <-. do 5 (split; [auto|]). intros [|? ys] z q Q; discriminate Q.
  - destruct (new_edge_order M p x w) as [M1|] eqn:E1; [|discriminate E]. inversion ND as [|? ? N1 N2]; subst. inversion N2 as [|? ? N3 N4]; subst.
    assert (Npx : p <> x) by (intro Q; apply N1; left; auto). assert (Hx : x < m_n M) by (apply Bx; left; auto).
    destruct (order_nopar M p x w M1 V Npx Hp Hx NP) as (NP1 & V1 & Nn1 & L1 & T1); [rewrite (Em x (or_introl eq_refl)); intros []|exact E1|].
    destruct (IH x M1 M' N2) as (NP2 & V2 & Nn2 & L2 & U2 & Z2); try (rewrite Nn1); auto.
    + intros y Hy. apply Bx. right. auto.
    + intros y Hy. rewrite T1, Em by (right; auto). cbn [app]. destruct (Nat.eqb_spec y p) as [->|]; [exfalso; apply N1; right; auto|]. destruct (Nat.eqb_spec y x) as [->|]; [contradiction|auto].
    + split; [auto|]. split; [auto|]. split; [congruence|]. split; [congruence|]. split.
      * intros y Hy. rewrite U2 by (intro I; apply Hy; right; auto). rewrite T1. destruct (Nat.eqb_spec y p) as [->|]; [exfalso; apply Hy; left; auto|]. destruct (Nat.eqb_spec y x) as [->|]; [exfalso; apply Hy; right; left; auto|]. apply app_nil_r.
      * intros [|y ys] z q Q I.
        -- cbn in Q. injection Q as -> ->. cbn [sc_path] in E. injection E as <-. rewrite T1, (Em z (or_introl eq_refl)) in I. cbn [app] in I. destruct (Nat.eqb_spec z p) as [->|]; [congruence|]. rewrite Nat.eqb_refl in I. destruct I as [<-|[]]. reflexivity.
        -- cbn [app] in Q. injection Q as -> Q. rewrite (Z2 ys z q Q I). destruct ys as [|y' ys]; [reflexivity|]. change (last (y :: y' :: ys) p) with (last (y' :: ys) p). clear. revert y'. induction ys as [|a ys IH]; intro y'; [reflexivity|]. exact (IH a).
Qed.

Lemma links_nopar c n : 2 <= n -> forall its i, items c n i its -> forall prev M M', mvalid M -> m_last M = m_n M -> n <= m_n M -> prev < m_n M ->
  match its with ItA _ :: _ => prev < i \/ n <= prev | _ => True end -> no_parallel (m_rows M) -> (forall x, after its i <= x -> x < n -> tgts (nth x (m_rows M) []) = []) -> sc_links c its prev M = Some M' -> no_parallel (m_rows M').
Proof.
  intros Nn its i H. induction H as [|i its Hi H IH|i len its Hl Hi Ev H IH]; intros prev M M' V L Bn Hp Dp NP Em E.
  - cbn in E. injection E as <-. auto.
  - cbn [after] in Em. destruct (items_hd _ _ _ _ H) as [(its' & Q)|(len & its' & Q & Q1 & Q2)]; rewrite Q in E, IH; cbn [sc_links] in E.
    + destruct (new_edge_order M i (S i) c) as [M1|] eqn:E1; [|discriminate E]. destruct (order_nopar M i (S i) c M1 V) as (NP1 & V1 & N1 & L1 & T1); try lia; auto; [rewrite (Em (S i)) by lia; intros []|].
      apply (IH i M1 M'); auto; try lia. cbn [after]. intros x A B. rewrite T1, Em by lia. destruct (Nat.eqb_spec x i); [lia|]. destruct (Nat.eqb_spec x (S i)); [lia|auto].
    + apply (IH i M M'); auto; try lia. 
  - cbn [after] in Em. destruct (match its with ItB y :: _ => (y, M) | _ => (m_last M, new_empty_node M) end) as [next M1] eqn:EN. cbn [sc_links] in E. rewrite EN in E.
    assert (A : mvalid M1 /\ m_last M1 = m_n M1 /\ m_n M <= m_n M1 /\ no_parallel (m_rows M1) /\ (forall x, i <= x -> x < n -> tgts (nth x (m_rows M1) []) = []) /\ next < m_n M1 /\ tgts (nth next (m_rows M1) []) = [] /\ (next = i + len \/ m_n M <= next) /\ (forall x, m_n M <= x -> x < m_n M1 -> x = next)).
    { destruct (items_hd _ _ _ _ H) as [(its' & Q)|(len2 & its' & Q & Q1 & Q2)]; rewrite Q in EN; injection EN as <- <-.
      - split; [auto|]. split; [auto|]. split; [auto|]. split; [auto|]. split; [auto|]. split; [lia|]. split; [apply Em; lia|]. split; [auto|]. intros; lia.
      - destruct (empty_any M V L) as (V1 & N1 & L1 & _). split; [auto|]. split; [auto|]. split; [lia|].
        assert (RR : m_rows (new_empty_node M) = m_rows M ++ [[]]). { unfold new_empty_node. rewrite L, Nat.eqb_refl. reflexivity. }
        assert (AT : forall x, nth x (m_rows (new_empty_node M)) [] = nth x (m_rows M) []).
        { intro x. rewrite RR. destruct (Nat.lt_ge_cases x (length (m_rows M))); [apply app_nth1; auto|]. rewrite app_nth2, (nth_overflow (m_rows M)) by auto. destruct (x - length (m_rows M)) as [|[|]]; reflexivity. }
        split; [intro x; rewrite AT; apply NP|]. split; [intros x A B; rewrite AT; apply Em; auto|]. split; [rewrite N1; lia|]. split; [rewrite AT, nth_overflow; [reflexivity|unfold m_n in L; lia]|]. split; [right; lia|]. intros x A B. lia. }
    destruct A as (V1 & L1 & Le & NP1 & Em1 & Hn & Tn & Pn & Un). assert (Nnx : ~ In next (prev :: seq i len)).
    { intros [Q|Q]; [subst prev; lia|apply in_seq in Q; lia]. }
    assert (ND : NoDup (prev :: seq i len ++ [next])).
    { rewrite app_comm_cons. apply (Permutation_NoDup (l := next :: prev :: seq i len)); [apply Permutation_cons_append|]. constructor; [auto|]. constructor; [intro I; apply in_seq in I; lia|apply seq_NoDup]. }
    destruct (sc_path (c / 2) prev (seq i len ++ [next]) M1) as [M2|] eqn:E2; [|discriminate E].
    destruct (path_nopar (c / 2) (seq i len ++ [next]) prev M1 M2 ND) as (NP2 & V2 & N2 & L2 & U2 & Z2); auto; try lia.
    { intros x I. apply in_app_or in I as [I|[<-|[]]]; [apply in_seq in I; lia|auto]. }
    { intros x I. apply in_app_or in I as [I|[<-|[]]]; [apply in_seq in I; apply Em1; lia|auto]. }
    destruct (new_edge_order M2 prev next (c / 2)) as [M3|] eqn:E3; [|discriminate E].
    destruct (order_nopar M2 prev next (c / 2) M3 V2) as (NP3 & V3 & N3 & L3 & T3); auto; try lia.
    { intro I. apply (Z2 (seq i len) next prev eq_refl) in I. destruct len as [|l']; [lia|]. rewrite seq_S, last_last in I. lia. }
    apply (IH next M3 M'); auto; try lia.
    + destruct its as [|[y|ys] its']; auto. destruct Pn as [->|]; [|right; lia]. destruct (items_hd _ _ _ _ H) as [(its'' & Q)|(len2 & its'' & Q & Q1 & Q2)]; [discriminate Q|]. injection EN as <- <-. right. lia.
    + intros x A B. assert (Q : i + len <= x) by (unfold after in A; destruct its as [|[]]; lia).
      assert (Nx : x <> next).
      { intros ->. destruct Pn as [Pn|]; [|lia]. destruct (items_hd _ _ _ _ H) as [(its'' & Q')|(len2 & its'' & Q' & Q1 & Q2)]; rewrite Q' in EN, A; cbn [after] in A; [lia|]. injection EN as EN _. lia. }
      rewrite T3, U2, Em1 by first [lia|intros [I|I]; [lia|apply in_app_or in I as [I|[I|[]]]; [apply in_seq in I; lia|congruence]]].
      destruct (Nat.eqb_spec x prev); [lia|]. destruct (Nat.eqb_spec x next); [congruence|auto].
Qed.

Lemma vertices_rows C ord M : sc_vertices C ord = Some M -> m_rows M = repeat [] (m_n C).
Proof.
  unfold sc_vertices. rewrite nodes_iter by auto. set (M0 := mk_mg _ _ _ _ _ _ _ _ _ _).
  assert (G : forall l M0 M', fold_opt (sc_fill C) l M0 = Some M' -> m_rows M' = m_rows M0).
  { clear. induction l as [|x l IH]; intros M0 M' E; cbn [fold_opt] in E; [injection E as <-; auto|]. destruct (sc_fill C M0 x) as [M1|] eqn:E1; [|discriminate E].
    apply IH in E. apply fill_same in E1. destruct E1 as (_ & _ & D1 & _). congruence. }
  destruct (fold_opt (sc_fill C) _ M0) as [M1|] eqn:E; [|intro Q; discriminate Q]. cbn [option_map]. intro Q. injection Q as <-. apply G in E. cbn [m_finish m_rows]. rewrite E. reflexivity.
Qed.
