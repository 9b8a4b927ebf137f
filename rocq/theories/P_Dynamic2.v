(* P_Dynamic2.v - contractVertexSet never makes an edge lighter; the path found in a tree. *)
From Verif Require Import SpecCut P_Cut SpecDyn M_Dynamic P_Mutable P_MutableIO P_Dynamic.

(** ** edges do not get lighter *)
Section Heavy.
Context (c : N).
Definition hv (h : half) : Prop := (c <= snd (fst h))%N.
Definition heavy (rows : list (list half)) : Prop := Forall (Forall hv) rows.

Lemma F_upd {A} (P : A -> Prop) l i x : Forall P l -> P x -> Forall P (upd l i x).
Proof. intro H. revert i. induction H as [|y l Hy Hl IH]; intros [|i] Hx; cbn; constructor; auto. Qed.
Lemma F_nth {A} (P : A -> Prop) l i d : Forall P l -> P d -> P (nth i l d).
Proof. intro H. revert i. induction H as [|y l Hy Hl IH]; intros [|i] Hd; cbn; auto. Qed.
Lemma F_rl {A} (P : A -> Prop) l : Forall P l -> Forall P (removelast l).
Proof. induction 1 as [|y l Hy Hl IH]; [constructor|]. cbn. destruct l; [constructor|constructor; auto]. Qed.
Lemma F_app {A} (P : A -> Prop) l l' : Forall P l -> Forall P l' -> Forall P (l ++ l').
Proof. intros A1 A2. apply Forall_app. auto. Qed.

Lemma hv_row rows v : heavy rows -> Forall hv (nth v rows []).
Proof. intro H. apply F_nth; [exact H|constructor]. Qed.
Lemma hv_slot rows v e t w r : heavy rows -> slot rows v e = Some (t, w, r) -> (c <= w)%N.
Proof. intros H S. apply nth_error_In in S. pose proof (hv_row rows v H) as R. rewrite Forall_forall in R. apply (R (t, w, r) S). Qed.
Lemma hv_rset rows v e x : heavy rows -> hv x -> heavy (rset rows v e x).
Proof. intros H Hx. apply F_upd; [exact H|]. apply F_upd; [apply hv_row; auto|auto]. Qed.
Lemma hv_set_rev rows v e r rows' : heavy rows -> set_rev rows v e r = Some rows' -> heavy rows'.
Proof. intros H E. unfold set_rev in E. destruct (slot rows v e) as [[[t w] r0]|] eqn:S; [|discriminate E]. injection E as <-. apply hv_rset; [auto|]. unfold hv. cbn. eapply hv_slot; eauto. Qed.
Lemma hv_set_tgt rows v e r rows' : heavy rows -> set_tgt rows v e r = Some rows' -> heavy rows'.
Proof. intros H E. unfold set_tgt in E. destruct (slot rows v e) as [[[t w] r0]|] eqn:S; [|discriminate E]. injection E as <-. apply hv_rset; [auto|]. unfold hv. cbn. eapply hv_slot; eauto. Qed.
Lemma hv_add_wgt rows v e x rows' : heavy rows -> add_wgt rows v e x = Some rows' -> heavy rows'.
Proof. intros H E. unfold add_wgt in E. destruct (slot rows v e) as [[[t w] r0]|] eqn:S; [|discriminate E]. injection E as <-. apply hv_rset; [auto|]. unfold hv. cbn. pose proof (hv_slot _ _ _ _ _ _ H S). lia. Qed.
Lemma hv_idel rows v e rows' : heavy rows -> internal_delete rows v e = Some rows' -> heavy rows'.
Proof.
  intros H E. unfold internal_delete in E. pose proof (hv_row rows v H) as R. destruct (Nat.ltb_spec (S e) (length (nth v rows []))) as [L|L].
  - eapply hv_set_rev; [|exact E]. apply F_upd; [exact H|]. apply F_rl. apply F_upd; [auto|]. rewrite Forall_forall in R. apply R. apply nth_In. lia.
  - destruct (length (nth v rows []) =? 0); [discriminate E|]. injection E as <-. apply F_upd; [exact H|]. apply F_rl. auto.
Qed.
Lemma hv_push rows v x : heavy rows -> hv x -> heavy (push rows v x).
Proof. intros H Hx. apply F_upd; [exact H|]. apply F_app; [apply hv_row; auto|constructor; auto]. Qed.

Lemma hv_split_first inS first : forall cnt k edges m rows deg ne edges' m' rows' deg' ne', heavy rows -> Forall hv edges ->
  split_first cnt inS first k edges m (rows, deg, ne) = Some (edges', m', (rows', deg', ne')) -> heavy rows' /\ Forall hv edges'.
Proof.
  induction cnt as [|cnt IH]; intros k edges m rows deg ne edges' m' rows' deg' ne' H He E; cbn [split_first] in E.
  - injection E as <- _ <- _ _. auto.
  - destruct (slot rows first k) as [[[t w] r]|] eqn:S; [|discriminate E]. destruct (inS t); [apply (IH _ _ _ _ _ _ _ _ _ _ _ H He E)|].
    destruct (set_rev rows t r (length edges)) as [rows1|] eqn:SR; [|discriminate E]. eapply IH; [|  |exact E]; [eapply hv_set_rev; eauto|].
    apply F_app; [auto|]. constructor; [|constructor]. unfold hv. cbn. eapply hv_slot; eauto.
Qed.

Lemma hv_merge_vertex inS first v : forall cnt k m rows deg ne m' rows' deg' ne', heavy rows ->
  merge_vertex cnt inS first v k m (rows, deg, ne) = Some (m', (rows', deg', ne')) -> heavy rows'.
Proof.
  induction cnt as [|cnt IH]; intros k m rows deg ne m' rows' deg' ne' H E; cbn [merge_vertex] in E.
  - injection E as _ <- _ _. auto.
  - destruct (slot rows v k) as [[[t w] r]|] eqn:S; [|discriminate E]. destruct (inS t); [apply (IH _ _ _ _ _ _ _ _ _ H E)|].
    destruct (nth t m None) as [[rev ed2]|].
    + destruct (add_wgt rows first ed2 w) as [r1|] eqn:E1; [|discriminate E]. destruct (add_wgt r1 t rev w) as [r2|] eqn:E2; [|discriminate E].
      destruct (internal_delete r2 t r) as [r3|] eqn:E3; [|discriminate E]. eapply IH; [|exact E]. eapply hv_idel; [|exact E3]. eapply hv_add_wgt; [|exact E2]. eapply hv_add_wgt; [|exact E1]. auto.
    + destruct (set_rev rows t r (length (nth first rows []))) as [r1|] eqn:E1; [|discriminate E]. destruct (set_tgt r1 t r first) as [r2|] eqn:E2; [|discriminate E].
      eapply IH; [|exact E]. apply hv_push; [|unfold hv; cbn; eapply hv_slot; eauto]. eapply hv_set_tgt; [|exact E2]. eapply hv_set_rev; [|exact E1]. auto.
Qed.

Lemma hv_merge_vertices inS first : forall vs m rows deg ne rows' deg' ne', heavy rows ->
  merge_vertices vs inS first m (rows, deg, ne) = Some (rows', deg', ne') -> heavy rows'.
Proof.
  induction vs as [|v vs IH]; intros m rows deg ne rows' deg' ne' H E; cbn [merge_vertices] in E.
  - injection E as <- _ _. auto.
  - destruct (merge_vertex _ inS first v 0 m (rows, deg, ne)) as [[m1 [[r1 d1] n1]]|] eqn:E1; [|discriminate E]. eapply IH; [|exact E]. eapply hv_merge_vertex; [exact H|exact E1].
Qed.

Lemma hv_remap v new : forall cnt rows k rows', heavy rows -> remap cnt rows v new k = Some rows' -> heavy rows'.
Proof.
  induction cnt as [|cnt IH]; intros rows k rows' H E; cbn [remap] in E; [injection E as <-; auto|].
  destruct (slot rows v k) as [[[t w] r]|]; [|discriminate E]. destruct (set_tgt rows t r new) as [r1|] eqn:E1; [|discriminate E]. eapply IH; [|exact E]. eapply hv_set_tgt; [exact H|exact E1].
Qed.

Lemma hv_drop first : forall vs G G', heavy (m_rows G) -> drop_vertices vs first G = Some G' -> heavy (m_rows G').
Proof.
  induction vs as [|v vs IH]; intros G G' H E; cbn [drop_vertices] in E; [injection E as <-; auto|].
  destruct (v <? m_n G - 1).
  - destruct (remap _ _ v v 0) as [r2|] eqn:E1; [|discriminate E]. eapply IH; [|exact E]. cbn [m_rows]. apply F_rl. eapply hv_remap; [|exact E1].
    apply F_upd; [|constructor]. apply F_upd; [exact H|]. apply hv_row. auto.
  - eapply IH; [|exact E]. cbn [m_rows]. apply F_rl. exact H.
Qed.

Theorem contract_set_heavy G vset G' : heavy (m_rows G) -> m_contract_set G vset = Some G' -> heavy (m_rows G').
Proof.
  intros H E. unfold m_contract_set in E. destruct (filter _ vset) as [|x [|y xs]]; [injection E as <-; auto|injection E as <-; auto|].
  cbv zeta in E. set (first := fold_left Nat.min (y :: xs) x) in E. set (inS := fun t => existsb (Nat.eqb t) vset) in E.
  destruct (split_first _ inS first 0 [] _ _) as [[[edges m] [[r1 d1] n1]]|] eqn:E1; [|discriminate E].
  destruct (hv_split_first _ _ _ _ _ _ _ _ _ _ _ _ _ _ H (Forall_nil _) E1) as [H1 He].
  destruct (merge_vertices _ inS first m _) as [[[r2 d2] n2]|] eqn:E2; [|discriminate E].
  eapply hv_drop; [|exact E]. cbn. eapply hv_merge_vertices; [|exact E2]. apply F_upd; auto.
Qed.
End Heavy.
