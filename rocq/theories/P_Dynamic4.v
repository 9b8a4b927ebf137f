(* P_Dynamic4.v - one addEdge or removeEdge keeps the value and the cactus right. *)
From Verif Require Import SpecCut P_Cut SpecDyn M_Dynamic P_Mutable P_MutableIO P_Mutable7 P_Dynamic P_Dynamic2 P_Dynamic3 Prop_Mutable.

Definition mwt (G : mg) : wfun := wt (adj (m_rows G)).
Definition mpos (C : mg) (x : nat) : nat := nth x (m_pos C) 0.

(** C is a cactus of the graph (n, W) with minimum cut c.  [complete] is not asked for *)
Record cactus_ok (n : nat) (W : wfun) (c : N) (C : mg) : Prop := {
  k_min : is_mincut n W c;
  k_valid : mvalid C;
  k_part : length (m_part C) = m_n C;
  k_cut : length (m_cut C) = m_n C;
  k_groups : groups_exact (m_n C) (m_cont C) (m_pos C);
  k_len : length (m_pos C) = n;
  k_pos : forall x, x < n -> mpos C x < m_n C;
  k_edges : c <> 0%N -> forall v t w r, In (t, w, r) (nth v (m_rows C) []) -> w = c \/ (2 * w)%N = c;
  k_two : 2 <= m_n C;
  k_sound : sound n W c (m_n C) (mwt C) (mpos C);
  k_apart : apart c (m_n C) (mwt C);
  k_least : atleast c (m_n C) (mwt C) }.

(** what the called algorithms promise *)
Record answers {FL : Type} (n : nat) (Q : nat -> mg -> Prop) (all : nat -> mg -> option N -> N * mg) (noi : nat -> mg -> N) (flow : nat -> mg -> nat -> nat -> N -> N * FL)
    (rebuild : nat -> mg -> nat -> N -> FL -> mg) (ord : nat -> list nat -> list nat) : Prop := {
  a_all : forall k G, Q k G -> mvalid G -> m_n G = n -> cactus_ok n (mwt G) (fst (all k G None)) (snd (all k G None));
  a_known : forall k G c, Q k G -> mvalid G -> m_n G = n -> is_mincut n (mwt G) c -> cactus_ok n (mwt G) (fst (all k G (Some c))) (snd (all k G (Some c)));
  a_noi : forall k G, Q k G -> mvalid G -> m_n G = n -> is_mincut n (mwt G) (noi k G);
  a_flow : forall k G s t lim, Q k G -> mvalid G -> m_n G = n -> s < n -> t < n -> s <> t ->
    if (fst (flow k G s t lim) <? lim)%N then is_stcut n (mwt G) s t (fst (flow k G s t lim)) else forall S, S s <> S t -> (lim <= cutw n (mwt G) S)%N;
  a_rebuild : forall k G s t lim c fl, Q k G -> mvalid G -> m_n G = n -> s < n -> t < n -> s <> t -> flow k G s t lim = (c, fl) -> (c < lim)%N -> is_mincut n (mwt G) c ->
    (forall S, proper n S -> cutw n (mwt G) S = c -> S s <> S t) -> cactus_ok n (mwt G) c (rebuild k G s c fl);
  a_ord : forall k l, Permutation (ord k l) l }.

(** the cactus shows every minimum cut; asked for in the calls Q only *)
Definition full (n : nat) (W : wfun) (c : N) (C : mg) : Prop := complete n W c (m_n C) (mwt C) (mpos C).
Record answers_full {FL : Type} (n : nat) (Q : nat -> mg -> Prop) (all : nat -> mg -> option N -> N * mg) (flow : nat -> mg -> nat -> nat -> N -> N * FL)
    (rebuild : nat -> mg -> nat -> N -> FL -> mg) : Prop := {
  f_all : forall k G, Q k G -> mvalid G -> m_n G = n -> full n (mwt G) (fst (all k G None)) (snd (all k G None));
  f_known : forall k G c, Q k G -> mvalid G -> m_n G = n -> is_mincut n (mwt G) c -> full n (mwt G) (fst (all k G (Some c))) (snd (all k G (Some c)));
  f_rebuild : forall k G s t lim c fl, Q k G -> mvalid G -> m_n G = n -> s < n -> t < n -> s <> t -> flow k G s t lim = (c, fl) -> (c < lim)%N -> is_mincut n (mwt G) c ->
    (forall S, proper n S -> cutw n (mwt G) S = c -> S s <> S t) -> full n (mwt G) c (rebuild k G s c fl) }.

Lemma answers_sub {FL} n (Q Q' : nat -> mg -> Prop) all noi (flow : nat -> mg -> nat -> nat -> N -> N * FL) rebuild ord :
  (forall k G, Q' k G -> Q k G) -> answers n Q all noi flow rebuild ord -> answers n Q' all noi flow rebuild ord.
Proof. intros I [A1 A2 A3 A4 A5 A6]. constructor; intros; eauto. apply A4; auto. Qed.

Lemma full_sub n W W' c C : full n W c C -> (forall S, proper n S -> cutw n W' S = c -> cutw n W S = c) -> full n W' c C.
Proof. intros F H S P E. apply F; auto. Qed.

Lemma mwt_symm G : mvalid G -> symm (m_n G) (mwt G).
Proof. intros [V _]. apply valid_symm. exact V. Qed.
Lemma mwt_loop G : mvalid G -> loopfree (m_n G) (mwt G).
Proof.
  intros [V _] u Hu. destruct (N.eq_dec (mwt G u u) 0) as [E|E]; [auto|]. apply wt_in in E as (w & r & I). apply In_nth_error in I as (e & E). destruct (V u e u w r E) as (_ & X & _). congruence.
Qed.

Lemma diff_neqb (a b : bool) : a <> b -> Bool.eqb a b = false.
Proof. destruct a, b; cbn; congruence. Qed.

(** a represented minimum cut separating two vertices of the cactus *)
Lemma ok_sep n W c C a b : cactus_ok n W c C -> a < m_n C -> b < m_n C -> a <> b -> exists f, f a <> f b /\ proper n (fun x => f (mpos C x)) /\ cutw n W (fun x => f (mpos C x)) = c.
Proof.
  intros K Ha Hb N. destruct (k_apart _ _ _ _ K a b Ha Hb N) as (f & D & E). exists f. split; [auto|]. apply (k_sound _ _ _ _ K f); [|exact E].
  destruct (f a) eqn:A, (f b) eqn:B; try congruence; [split; [exists a|exists b]; auto|split; [exists b|exists a]; auto].
Qed.

(** changing an edge inside one vertex of the cactus *)
Lemma ok_same n W W' c C s t : cactus_ok n W c C -> s < n -> t < n -> mpos C s = mpos C t ->
  (forall S, S s = S t -> cutw n W' S = cutw n W S) -> (forall S, S s <> S t -> (c <= cutw n W' S)%N) -> cactus_ok n W' c C.
Proof.
  intros K Hs Ht E EQ GE. assert (PB : forall f : nat -> bool, cutw n W' (fun x => f (mpos C x)) = cutw n W (fun x => f (mpos C x))) by (intro f; apply EQ; rewrite E; reflexivity).
  destruct K as [k1 k2 k3 k4 k5 k6 k7 k8 k9 k10 k11 k12]. constructor; auto.
  - split.
    + destruct (k11 0 1 ltac:(lia) ltac:(lia) ltac:(lia)) as (f & D & Ef). destruct (k10 f) as [P X]; [|exact Ef|exists (fun x => f (mpos C x)); rewrite PB; auto].
      destruct (f 0) eqn:A, (f 1) eqn:B; try congruence; [split; [exists 0|exists 1]; (split; [lia|auto])|split; [exists 1|exists 0]; (split; [lia|auto])].
    + intros S P. destruct (bool_dec (S s) (S t)) as [X|X]; [rewrite EQ by auto; apply (proj2 k1 S P)|auto].
  - intros f P X. destruct (k10 f P X) as [A B]. rewrite PB. auto.
Qed.

(** lowering the weight of an edge when the cut is 0 *)
Lemma ok_zero n W W' C : cactus_ok n W 0 C -> (forall S, (cutw n W' S <= cutw n W S)%N) -> cactus_ok n W' 0 C.
Proof.
  intros K LE. destruct K as [k1 k2 k3 k4 k5 k6 k7 k8 k9 k10 k11 k12]. constructor; auto.
  - split; [|intros S P; lia]. destruct k1 as [(S & P & X) _]. exists S. split; [auto|]. specialize (LE S). lia.
  - intros f P X. destruct (k10 f P X) as [A B]. split; [auto|]. specialize (LE (fun x => f (mpos C x))). lia.
Qed.

(** adding an edge between two vertices of the cactus that get contracted *)
Lemma ok_contract n W W' c C C' P f s t :
  cactus_ok n W c C -> mvalid C' -> length (m_part C') = m_n C' -> length (m_cut C') = m_n C' -> groups_exact (m_n C') (m_cont C') (m_pos C') ->
  length (m_pos C') = length (m_pos C) -> (forall x, x < length (m_pos C) -> mpos C' x = f (mpos C x)) ->
  clustering (m_n C) f (m_n C') -> merges (m_n C) (fun x => In x P) f ->
  (forall S, cutw (m_n C') (mwt C') S = cutw (m_n C) (mwt C) (fun x => S (f x))) ->
  In (mpos C s) P -> In (mpos C t) P -> s < n -> t < n ->
  (forall S, S s = S t -> cutw n W' S = cutw n W S) -> (forall S, (cutw n W S <= cutw n W' S)%N) ->
  (c <> 0%N -> forall v x w r, In (x, w, r) (nth v (m_rows C') []) -> w = c \/ (2 * w)%N = c) -> 2 <= m_n C' -> apart c (m_n C') (mwt C') -> cactus_ok n W' c C'.
Proof.
  intros K V' P' Q' G' LP PO CL ME CW Is It Hs Ht EQ LE ED TW AP. pose proof (k_len _ _ _ _ K) as LN.
  assert (FP : mpos C' s = mpos C' t). { rewrite !PO by lia. apply ME; [apply (k_pos _ _ _ _ K); auto|apply (k_pos _ _ _ _ K); auto|auto]. }
  assert (LIFT : forall g, proper (m_n C') g -> proper (m_n C) (fun x => g (f x))).
  { intros g [(u & Hu & Gu) (v & Hv & Gv)]. destruct (proj2 CL u Hu) as (a & Ha & <-). destruct (proj2 CL v Hv) as (b & Hb & <-). split; [exists a|exists b]; auto. }
  assert (SO : sound n W' c (m_n C') (mwt C') (mpos C')).
  { intros g Pg E. rewrite CW in E. destruct (k_sound _ _ _ _ K _ (LIFT g Pg) E) as [A B]. cbn beta in A, B.
    assert (X : forall x, x < n -> g (mpos C' x) = g (f (mpos C x))) by (intros x Hx; rewrite PO by lia; auto). split.
    - destruct A as [(u & Hu & Gu) (v & Hv & Gv)]. split; [exists u|exists v]; rewrite X by auto; auto.
    - rewrite EQ by (rewrite FP; reflexivity). rewrite <- B. apply cutw_ext. exact X. }
  constructor; auto.
  - split.
    + destruct (AP 0 1 ltac:(lia) ltac:(lia) ltac:(lia)) as (g & D & E). destruct (SO g) as [A B]; [|exact E|exists (fun x => g (mpos C' x)); auto].
      destruct (g 0) eqn:A, (g 1) eqn:B; try congruence; [split; [exists 0|exists 1]; (split; [lia|auto])|split; [exists 1|exists 0]; (split; [lia|auto])].
    + intros S PS. etransitivity; [apply (proj2 (k_min _ _ _ _ K) S PS)|apply LE].
  - lia.
  - intros x Hx. rewrite PO by lia. apply (proj1 CL). apply (k_pos _ _ _ _ K). auto.
  - intros g Pg. rewrite CW. apply (k_least _ _ _ _ K). auto.
Qed.

(** the two updates of the graph *)
Definition g_step (G : mg) (o : dop) : option mg :=
  match o with
  | DAdd s t w => new_edge_order G s t w
  | DRem s t => match edge_to (nth s (m_rows G) []) t 0 with Some (e, _) => m_delete_edge G s e | None => Some G end
  end.

Lemma bump_cut n T T' s t dec inc S : s < n -> t < n -> s <> t -> (forall a b, a < n -> b < n -> on_pair s t a b = true -> (dec <= T a b)%N) ->
  (forall a b, a < n -> b < n -> T' a b = bump T s t dec inc a b) ->
  (cutw n T' S + (if Bool.eqb (S s) (S t) then 0 else dec) = cutw n T S + (if Bool.eqb (S s) (S t) then 0 else inc))%N.
Proof.
  intros Hs Ht N LE H. apply cutw_wstep; auto. intros a b Ha Hb. rewrite H by auto. specialize (LE a b Ha Hb). unfold bump. fold (on_pair s t a b). destruct (on_pair s t a b); [specialize (LE eq_refl); lia|lia].
Qed.

Lemma add_graph G n s t w : mvalid G -> m_n G = n -> s < n -> t < n -> exists G', new_edge_order G s t w = Some G' /\ mvalid G' /\ m_n G' = n /\
  forall S, cutw n (mwt G') S = (cutw n (mwt G) S + (if Bool.eqb (S s) (S t) then 0 else w))%N.
Proof.
  intros MV N Hs Ht. destruct (op_step n G (mwt G) (NewOrder s t w) MV N (fun a b _ _ => eq_refl) (conj Hs Ht)) as (G' & E & MV' & N' & _ & _ & X). cbn [run_op table_op] in E, X. exists G'. split; [auto|]. split; [auto|]. split; [auto|].
  destruct (Nat.eqb_spec s t) as [->|D].
  - intro S. rewrite Bool.eqb_reflx, N.add_0_r. apply cutw_ext_W. intros u v Hu Hv _. apply X; auto.
  - intro S. pose proof (bump_cut n (mwt G) (mwt G') s t 0 w S Hs Ht D (fun a b _ _ _ => N.le_0_l _) X) as Z. destruct (Bool.eqb (S s) (S t)); lia.
Qed.

Lemma edge_to_ok t : forall row e0 e w, edge_to row t e0 = Some (e, w) -> exists r, e0 <= e /\ nth_error row (e - e0) = Some (t, w, r).
Proof.
  induction row as [|[[x y] z] row IH]; intros e0 e w H; [discriminate H|]. cbn [edge_to] in H. destruct (Nat.eqb_spec x t) as [->|].
  - injection H as <- <-. exists z. rewrite Nat.sub_diag. split; [lia|reflexivity].
  - destruct (IH _ _ _ H) as (r & A & B). exists r. split; [lia|]. replace (e - e0) with (S (e - S e0)) by lia. exact B.
Qed.

Lemma rem_graph G n s t e w : mvalid G -> m_n G = n -> edge_to (nth s (m_rows G) []) t 0 = Some (e, w) ->
  s < n /\ t < n /\ s <> t /\ exists G', m_delete_edge G s e = Some G' /\ mvalid G' /\ m_n G' = n /\
    forall S, (cutw n (mwt G') S + (if Bool.eqb (S s) (S t) then 0 else w) = cutw n (mwt G) S)%N.
Proof.
  intros MV N E. destruct (edge_to_ok _ _ _ _ _ E) as (r & _ & Q). rewrite Nat.sub_0_r in Q.
  assert (Hs : s < n). { destruct (Nat.lt_ge_cases s n) as [|L]; [auto|]. rewrite nth_overflow in Q by (unfold m_n in N; lia). destruct e; discriminate Q. }
  destruct (proj1 MV s e t w r Q) as (Ht & D & _). fold (m_n G) in Ht. rewrite N in Ht. split; [auto|]. split; [auto|]. split; [auto|].
  assert (Le : e < length (nth s (m_rows G) [])) by (apply nth_error_Some; congruence).
  destruct (op_step n G (mwt G) (DelEdge s e) MV N (fun a b _ _ => eq_refl) (conj Hs Le)) as (G' & E' & MV' & N' & _ & _ & X). cbn [run_op table_op] in E', X.
  exists G'. split; [auto|]. split; [auto|]. split; [auto|]. intro S.
  assert (AE : nth_error (nth s (adj (m_rows G)) []) e = Some (t, w)). { rewrite adj_nth, nth_error_map. unfold half in *. rewrite Q. reflexivity. }
  rewrite AE in X. pose proof (bump_cut n (mwt G) (mwt G') s t w 0 S Hs Ht ltac:(auto)) as Z.
  assert (LE : forall a b, a < n -> b < n -> on_pair s t a b = true -> (w <= mwt G a b)%N) by (intros a b _ _ O; apply (slot_le_wt _ s e t w r a b (proj1 MV) Q O)).
  specialize (Z LE X). destruct (Bool.eqb (S s) (S t)); lia.
Qed.

(** a cut of weight c with an edge of at least c in it *)
Lemma cut_bridge k W c g u v : cutw k W g = c -> u < k -> v < k -> g u = true -> g v = false -> W u v <> 0%N -> c <> 0%N -> (forall x y, x < k -> y < k -> x <> y -> W x y <> 0%N -> (c <= W x y)%N) -> bridge k W c u v g.
Proof.
  intros E Hu Hv Gu Gv Z C0 H. assert (W1 : W u v = c) by (pose proof (cutw_le1 k W g u v Hu Hv Gu Gv); specialize (H u v Hu Hv ltac:(congruence) Z); lia).
  split; [auto|]. split; [auto|]. split; [auto|]. intros a b Ha Hb Ga Gb NZ. assert (N' : a <> b) by congruence.
  destruct (Nat.eq_dec a u) as [Ea|Ea], (Nat.eq_dec b v) as [Eb|Eb]; auto; exfalso;
    (assert (D : (u, v) <> (a, b)) by congruence; pose proof (cutw_le2 k W g u v a b Hu Hv Ha Hb Gu Gv Ga Gb D); specialize (H a b Ha Hb N' NZ); lia).
Qed.

Section Steps.
Context {FL : Type} (n : nat) (at_call : nat -> mg -> Prop) (all : nat -> mg -> option N -> N * mg) (noi : nat -> mg -> N) (flow : nat -> mg -> nat -> nat -> N -> N * FL)
    (rebuild : nat -> mg -> nat -> N -> FL -> mg) (ord : nat -> list nat -> list nat).
Hypothesis A : answers n at_call all noi flow rebuild ord.

Definition inv (st : dyn) : Prop := mvalid (d_g st) /\ m_n (d_g st) = n /\ cactus_ok n (mwt (d_g st)) (d_cut st) (d_c st).

Lemma init_inv G : at_call 0 G -> mvalid G -> m_n G = n -> inv (d_init all G) /\ d_g (d_init all G) = G /\ d_num (d_init all G) = 0 /\ d_low (d_init all G) = None.
Proof.
  intros Q0 MV N. unfold d_init. pose proof (a_all _ _ _ _ _ _ _ A 0 G Q0 MV N) as K. destruct (all 0 G None) as [c C]. cbn [fst snd] in K. split; [split; [exact MV|split; [exact N|exact K]]|auto].
Qed.

Lemma rem_step k st s t : inv st -> (forall G', g_step (d_g st) (DRem s t) = Some G' -> at_call k G') -> exists st', d_remove flow rebuild k st s t = Some st' /\ inv st' /\ g_step (d_g st) (DRem s t) = Some (d_g st') /\
  (d_cut st' = d_cut st -> d_num st' = d_num st /\ d_low st' = d_low st) /\ (d_cut st' <= d_cut st)%N /\
  (forall P, answers_full n P all flow rebuild -> P k (d_g st') -> full n (mwt (d_g st)) (d_cut st) (d_c st) ->
   (d_cut st' = d_cut st -> forall S, proper n S -> cutw n (mwt (d_g st')) S = d_cut st -> cutw n (mwt (d_g st)) S = d_cut st) -> full n (mwt (d_g st')) (d_cut st') (d_c st')).
Proof.
  intros (MV & N & K) HQ. unfold d_remove. cbn [g_step] in *. destruct (edge_to (nth s (m_rows (d_g st)) []) t 0) as [[e w]|] eqn:E.
  2:{ exists st. split; [auto|]. split; [split; [exact MV|split; [exact N|exact K]]|]. split; [auto|]. split; [auto|split; [lia|intros P _ _ FU _; exact FU]]. }
  destruct (rem_graph _ n s t e w MV N E) as (Hs & Ht & D & G' & E' & MV' & N' & X). rewrite E' in *. specialize (HQ G' eq_refl). pose proof (k_len _ _ _ _ K) as LN.
  rewrite !nth_error_nth_lt with (d := 0) by lia. fold (mpos (d_c st) s) (mpos (d_c st) t).
  assert (EQ : forall S, S s = S t -> cutw n (mwt G') S = cutw n (mwt (d_g st)) S) by (intros S ES; specialize (X S); rewrite ES, Bool.eqb_reflx in X; lia).
  destruct (N.eqb_spec w 0) as [W0|W0].
  { cbn [orb]. eexists. split; [reflexivity|]. cbn [d_g d_c d_cut d_num d_low]. split; [|split; [auto|split; [auto|split; [lia|intros P _ _ FU NEW; apply (full_sub n (mwt (d_g st))); auto]]]]. split; [auto|]. split; [auto|]. cbn [d_g d_c d_cut].
    assert (XE : forall S, cutw n (mwt G') S = cutw n (mwt (d_g st)) S) by (intro S; specialize (X S); rewrite W0 in X; destruct (Bool.eqb (S s) (S t)); lia).
    destruct K as [k1 k2 k3 k4 k5 k6 k7 k8 k9 k10 k11 k12]. constructor; auto.
    - destruct k1 as [(S & P & Y) Z]. split; [exists S; rewrite XE; auto|intros S' P'; rewrite XE; auto].
    - intros f P Y. destruct (k10 f P Y). rewrite XE. auto. }
  destruct (N.eqb_spec (d_cut st) 0) as [C0|C0].
  { cbn [orb]. eexists. split; [reflexivity|]. cbn [d_g d_c d_cut d_num d_low]. split; [|split; [auto|split; [auto|split; [lia|intros P _ _ FU NEW; apply (full_sub n (mwt (d_g st))); auto]]]]. split; [auto|]. split; [auto|]. cbn [d_g d_c d_cut]. rewrite C0 in *.
    apply (ok_zero n (mwt (d_g st))); [exact K|]. intro S. specialize (X S). destruct (Bool.eqb (S s) (S t)); lia. }
  cbn [orb]. pose proof (a_flow _ _ _ _ _ _ _ A k G' s t (d_cut st) HQ MV' N' Hs Ht D) as F. destruct (flow k G' s t (d_cut st)) as [f fl] eqn:EF. cbn [fst] in F.
  assert (LOW : (f < d_cut st)%N -> is_stcut n (mwt G') s t f -> is_mincut n (mwt G') f /\ forall S, proper n S -> cutw n (mwt G') S = f -> S s <> S t).
  { intros L [(S0 & D0 & E0) ST]. assert (NS : forall S, proper n S -> S s = S t -> (f < cutw n (mwt G') S)%N) by (intros S P ES; rewrite EQ by auto; pose proof (proj2 (k_min _ _ _ _ K) S P); lia). split; [split|].
    - exists S0. split; [|auto]. destruct (S0 s) eqn:B1, (S0 t) eqn:B2; try congruence; [split; [exists s|exists t]; auto|split; [exists t|exists s]; auto].
    - intros S P. destruct (bool_dec (S s) (S t)) as [ES|NES]; [specialize (NS S P ES); lia|auto].
    - intros S P ES EQ0. specialize (NS S P EQ0). lia. }
  assert (DONE : (f < d_cut st)%N -> is_stcut n (mwt G') s t f -> exists st', Some (let st2 := put_cache (mk_dyn G' (d_c st) (d_cut st) (d_num st) (d_low st) (d_cache st)) in mk_dyn G' (rebuild k G' s f fl) f (d_num st2) (d_low st2) (d_cache st2)) = Some st' /\
     inv st' /\ Some G' = Some (d_g st') /\ (d_cut st' = d_cut st -> d_num st' = d_num st /\ d_low st' = d_low st) /\ (d_cut st' <= d_cut st)%N /\
     (forall P, answers_full n P all flow rebuild -> P k (d_g st') -> full n (mwt (d_g st)) (d_cut st) (d_c st) ->
      (d_cut st' = d_cut st -> forall S, proper n S -> cutw n (mwt (d_g st')) S = d_cut st -> cutw n (mwt (d_g st)) S = d_cut st) -> full n (mwt (d_g st')) (d_cut st') (d_c st'))).
  { intros L ST. eexists. split; [reflexivity|]. cbn [d_g d_c d_cut]. destruct (LOW L ST) as [M1 M2]. split; [|split; [auto|split; [intro Z; lia|split; [lia|intros P FA QK _ _; apply (f_rebuild _ _ _ _ _ FA k G' s t (d_cut st) f fl); auto]]]]. split; [auto|]. split; [auto|]. apply (a_rebuild _ _ _ _ _ _ _ A k G' s t (d_cut st) f fl); auto. }
  destruct (N.ltb_spec f (d_cut st)) as [L|L].
  - rewrite orb_true_r. apply DONE; auto.
  - rewrite orb_false_r. destruct (Nat.eqb_spec (mpos (d_c st) s) (mpos (d_c st) t)) as [EP|NP]; cbn [negb].
    + eexists. split; [reflexivity|]. cbn [d_g d_c d_cut d_num d_low]. split; [|split; [auto|split; [auto|split; [lia|intros P _ _ FU NEW; apply (full_sub n (mwt (d_g st))); auto]]]]. split; [auto|]. split; [auto|]. apply (ok_same n (mwt (d_g st)) _ _ _ s t); auto.
    + exfalso. destruct (ok_sep _ _ _ _ _ _ K (k_pos _ _ _ _ K s Hs) (k_pos _ _ _ _ K t Ht) NP) as (g & Dg & Pg & Eg). specialize (F (fun x => g (mpos (d_c st) x)) Dg). specialize (X (fun x => g (mpos (d_c st) x))). cbn beta in X. rewrite (diff_neqb _ _ Dg), Eg in X. lia.
Qed.

Lemma nodup_lt_not_all (l : list nat) k : NoDup l -> (forall v, In v l -> v < k) -> length l <> k -> exists v, v < k /\ ~ In v l.
Proof.
  intros ND R L. destruct (forallb (fun v => existsb (Nat.eqb v) l) (seq 0 k)) eqn:E.
  - exfalso. assert (I1 : incl (seq 0 k) l). { intros v Hv. rewrite forallb_forall in E. specialize (E v Hv). apply existsb_exists in E as (x & I & Ex). apply Nat.eqb_eq in Ex. subst x. auto. }
    assert (I2 : incl l (seq 0 k)) by (intros v Hv; apply in_seq; specialize (R v Hv); lia). pose proof (NoDup_incl_length (seq_NoDup k 0) I1). pose proof (NoDup_incl_length ND I2). rewrite seq_length in *. lia.
  - assert (exists v, In v (seq 0 k) /\ existsb (Nat.eqb v) l = false) as (v & Hv & X).
    { clear - E. induction (seq 0 k) as [|v q IH]; [discriminate E|]. cbn in E. destruct (existsb (Nat.eqb v) l) eqn:X; [|exists v; split; [left; auto|auto]]. destruct (IH E) as (v' & I & Y). exists v'. split; [right; auto|auto]. }
    exists v. apply in_seq in Hv. split; [lia|]. intro I. assert (existsb (Nat.eqb v) l = true) by (apply existsb_exists; exists v; rewrite Nat.eqb_refl; auto). congruence.
Qed.

Lemma two_clusters k k' f P a v : clustering k f k' -> merges k (fun x => In x P) f -> In a P -> a < k -> v < k -> ~ In v P -> 2 <= k'.
Proof.
  intros CL ME Ia Ha Hv NI. pose proof (proj1 CL a Ha). pose proof (proj1 CL v Hv). assert (f a <> f v). { intro E. apply ME in E as [->|[_ B]]; auto. } lia.
Qed.

(** contraction of [l] in the cactus, for any iteration order *)
Lemma contract_step G' st k s t l : inv st -> mvalid G' -> m_n G' = n -> s < n -> t < n ->
  (forall S, S s = S t -> cutw n (mwt G') S = cutw n (mwt (d_g st)) S) -> (forall S, (cutw n (mwt (d_g st)) S <= cutw n (mwt G') S)%N) ->
  NoDup l -> (forall v, In v l -> v < m_n (d_c st)) -> In (mpos (d_c st) s) l -> In (mpos (d_c st) t) l -> length l <> m_n (d_c st) ->
  (d_cut st = 0%N \/ ((forall v x w r, In (x, w, r) (nth v (m_rows (d_c st)) []) -> w = d_cut st) /\ d_cut st <> 0%N /\ linked (m_n (d_c st)) (mwt (d_c st)) l)) ->
  exists C', m_contract_set (d_c st) (ord k l) = Some C' /\ cactus_ok n (mwt G') (d_cut st) C' /\
    (full n (mwt (d_g st)) (d_cut st) (d_c st) -> (forall S, proper n S -> cutw n (mwt G') S = d_cut st -> cutw n (mwt (d_g st)) S = d_cut st /\ S s = S t) ->
     (forall g, cutw (m_n (d_c st)) (mwt (d_c st)) g = d_cut st -> g (mpos (d_c st) s) = g (mpos (d_c st) t) -> forall a b, In a l -> In b l -> g a = g b) -> full n (mwt G') (d_cut st) C').
Proof.
  intros (MV & N & K) MV' N' Hs Ht EQ LE ND R Is It NL SH. set (C := d_c st) in *. set (c := d_cut st) in *. pose proof (a_ord _ _ _ _ _ _ _ A k l) as PE.
  destruct (contract_set_ok C (ord k l) (k_valid _ _ _ _ K) (Permutation_NoDup (Permutation_sym PE) ND) (k_part _ _ _ _ K) (k_cut _ _ _ _ K)) as (C' & f & E & V' & P' & Q' & CL & ME0 & CO & GR).
  destruct (C24_contract_vertex_set C (ord k l) (k_valid _ _ _ _ K) (Permutation_NoDup (Permutation_sym PE) ND) (k_part _ _ _ _ K) (k_cut _ _ _ _ K)) as (C2 & f2 & E2 & _ & _ & _ & CL2 & ME2 & CO2 & CW2 & GR2).
  rewrite E in E2. injection E2 as <-. destruct (GR2 (k_groups _ _ _ _ K)) as (G1 & G2 & G3).
  assert (ME : merges (m_n C) (fun x => In x l) f2).
  { intros u v Hu Hv. rewrite (ME2 u v Hu Hv). split; (intros [X|[X Y]]; [left; auto|right]); split; [eapply Permutation_in; [exact PE|auto]|eapply Permutation_in; [exact PE|auto]|eapply Permutation_in; [apply Permutation_sym, PE|auto]|eapply Permutation_in; [apply Permutation_sym, PE|auto]]. }
  destruct (nodup_lt_not_all l (m_n C) ND R NL) as (v & Hv & NI).
  pose proof (two_clusters _ _ _ _ _ _ CL2 ME Is (R _ Is) Hv NI) as TW.
  exists C'. split; [exact E|]. split.
  2:{ intros FU SUB CONST S PS ES. destruct (SUB S PS ES) as [E1 E2]. destruct (FU S PS E1) as (g & Eg & Rg). pose proof (lift_ok (m_n C) l f2 ME g (CONST g Eg ltac:(rewrite !Rg by auto; exact E2))) as LO.
    exists (lift (m_n C) f2 g). rewrite CW2. split; [rewrite <- Eg; apply cutw_ext; exact LO|]. intros x Hx. pose proof (k_len _ _ _ _ K) as LN. unfold mpos at 1. rewrite G3 by (fold C in LN; lia). fold (mpos C x). rewrite LO by (apply (k_pos _ _ _ _ K); auto). apply Rg; auto. }
  pose proof (mwt_symm C (k_valid _ _ _ _ K)) as SY. pose proof (mwt_symm C' V') as SY'. pose proof (mwt_loop C' V') as LF'.
  apply (ok_contract n (mwt (d_g st)) (mwt G') c C C' l f2 s t); auto; destruct SH as [Z|(H1 & H2 & H3)].
  - intro Q. contradiction.
  - intros _. assert (HV : heavy c (m_rows C)). { apply Forall_forall. intros row Hr. apply In_nth with (d := []) in Hr as (i & _ & <-). apply Forall_forall. intros [[x w] r] Hx. unfold hv. cbn. rewrite (H1 _ _ _ _ Hx). lia. }
    pose proof (contract_set_heavy c C (ord k l) C' HV E) as HV'.
    assert (B : bridged (m_n C) (mwt C) c). { apply apart_bridged; [auto|auto|apply (k_apart _ _ _ _ K)|]. intros x y Hx Hy Nxy Zxy. apply wt_in in Zxy as (w & r & I). pose proof (in_wt _ _ _ _ _ I). rewrite (H1 _ _ _ _ I) in *. auto. }
    pose proof (bridged_contract (m_n C) (m_n C') (mwt C) (mwt C') c l f2 ME CO2 R H3 B) as B'.
    intros a x w r Hx. left. assert (Ha : a < m_n C'). { destruct (Nat.lt_ge_cases a (m_n C')) as [|L]; [auto|]. rewrite nth_overflow in Hx by exact L. destruct Hx. }
    assert (LW : (c <= w)%N). { pose proof (hv_row c (m_rows C') a HV') as F. rewrite Forall_forall in F. apply (F _ Hx). }
    pose proof (in_wt _ _ _ _ _ Hx) as UB. fold (mwt C' a x) in UB. apply In_nth_error in Hx as (e & Ee). destruct (proj1 V' a e x w r Ee) as (Hxx & D & _).
    destruct (B' a x Ha Hxx ltac:(auto) ltac:(lia)) as (g & (_ & _ & EW & _)). lia.
  - intros a b Ha Hb D. rewrite Z. exists (fun x => x =? a). split; [rewrite Nat.eqb_refl; destruct (Nat.eqb_spec b a); congruence|]. rewrite CW2.
    destruct (N.eq_dec (cutw (m_n C) (mwt C) (fun x => f2 x =? a)) 0) as [Q|Q]; [exact Q|exfalso]. apply cutw_pos in Q as (u & w & Hu & Hw & U1 & U2 & Q). cbn beta in U1, U2.
    assert (u <> w) by (intros ->; congruence). destruct (k_apart _ _ _ _ K u w Hu Hw H) as (g & Dg & Eg). rewrite Z in Eg.
    destruct (g u) eqn:Gu, (g w) eqn:Gw; try congruence; [pose proof (cutw_le1 _ (mwt C) g u w Hu Hw Gu Gw)|rewrite SY in Q by auto; pose proof (cutw_le1 _ (mwt C) g w u Hw Hu Gw Gu)]; lia.
  - assert (B : bridged (m_n C) (mwt C) c). { apply apart_bridged; [auto|auto|apply (k_apart _ _ _ _ K)|]. intros x y Hx Hy Nxy Zxy. apply wt_in in Zxy as (w & r & I). pose proof (in_wt _ _ _ _ _ I). rewrite (H1 _ _ _ _ I) in *. auto. }
    pose proof (bridged_contract (m_n C) (m_n C') (mwt C) (mwt C') c l f2 ME CO2 R H3 B) as B'.
    apply bridged_apart; auto. intros g Pg. rewrite CW2. intro Q. assert (PL : proper (m_n C) (fun x => g (f2 x))).
    { destruct Pg as [(u & Hu & Gu) (w & Hw & Gw)]. destruct (proj2 CL2 u Hu) as (a & Ha & <-). destruct (proj2 CL2 w Hw) as (b & Hb & <-). split; [exists a|exists b]; auto. }
    pose proof (k_least _ _ _ _ K _ PL). cbn beta in H. apply H2. unfold mwt in *. unfold c. apply N.le_0_r. rewrite <- Q. exact H.
Qed.

Lemma add_step k st s t w : inv st -> (forall G', g_step (d_g st) (DAdd s t w) = Some G' -> at_call k G') -> d_num st = 0 -> d_low st = None -> s < n -> t < n -> d_cut st = 0%N \/ N.odd (d_cut st) = true ->
  exists st', d_add all noi ord k st s t w = Some st' /\ inv st' /\ g_step (d_g st) (DAdd s t w) = Some (d_g st') /\ d_num st' = 0 /\ d_low st' = None /\
    (forall P, answers_full n P all flow rebuild -> P k (d_g st') -> w <> 0%N -> full n (mwt (d_g st)) (d_cut st) (d_c st) -> full n (mwt (d_g st')) (d_cut st') (d_c st')).
Proof.
  intros I HQ NU LO Hs Ht OD. pose proof I as (MV & N & K). unfold d_add. cbn [g_step] in *. pose proof (k_len _ _ _ _ K) as LN.
  rewrite !nth_error_nth_lt with (d := 0) by lia. fold (mpos (d_c st) s) (mpos (d_c st) t).
  destruct (add_graph _ n s t w MV N Hs Ht) as (G' & E & MV' & N' & CH). rewrite E in *. specialize (HQ G' eq_refl).
  assert (EQ : forall S, S s = S t -> cutw n (mwt G') S = cutw n (mwt (d_g st)) S) by (intros S ES; rewrite CH, ES, Bool.eqb_reflx; lia).
  assert (LE : forall S, (cutw n (mwt (d_g st)) S <= cutw n (mwt G') S)%N) by (intro S; rewrite CH; lia).
  assert (SUB : w <> 0%N -> forall S, proper n S -> cutw n (mwt G') S = d_cut st -> cutw n (mwt (d_g st)) S = d_cut st /\ S s = S t).
  { intros W0 S PS ES. pose proof (proj2 (k_min _ _ _ _ K) S PS) as GE. rewrite CH in ES. destruct (bool_dec (S s) (S t)) as [Q|Q]; [rewrite Q, Bool.eqb_reflx in ES; split; [lia|auto]|rewrite (diff_neqb _ _ Q) in ES; lia]. }
  unfold cache_edge. cbn [d_num]. rewrite NU. cbn [Nat.eqb d_c d_cut d_g d_low d_cache d_num].
  assert (FULL : exists st', d_check all noi ord k (mk_dyn G' (d_c st) (d_cut st) 0 (d_low st) (d_cache st)) = Some st' /\ inv st' /\ Some G' = Some (d_g st') /\ d_num st' = 0 /\ d_low st' = None /\
    (forall P, answers_full n P all flow rebuild -> P k (d_g st') -> w <> 0%N -> full n (mwt (d_g st)) (d_cut st) (d_c st) -> full n (mwt (d_g st')) (d_cut st') (d_c st'))).
  { unfold d_check. cbn [d_low]. rewrite LO. unfold d_recompute. cbn [d_g]. pose proof (a_all _ _ _ _ _ _ _ A k G' HQ MV' N') as K'. pose proof (fun P FA QK => f_all n P all flow rebuild FA k G' QK MV' N') as FK. destruct (all k G' None) as [c' C']. cbn [fst snd] in K', FK.
    eexists. split; [reflexivity|]. split; [split; [exact MV'|split; [exact N'|exact K']]|]. split; [auto|]. split; [auto|]. split; [auto|]. intros P FA QK _ _. exact (FK P FA QK). }
  destruct (Nat.eqb_spec (mpos (d_c st) s) (mpos (d_c st) t)) as [EP|NP].
  { eexists. split; [reflexivity|]. split; [split; [auto|split; [auto|]]|split; [auto|split; [auto|split; [auto|intros P _ _ W0 FU; apply (full_sub n (mwt (d_g st))); [exact FU|intros S PS ES; apply (SUB W0 S PS ES)]]]]]. cbn [d_g d_c d_cut].
    apply (ok_same n (mwt (d_g st)) _ _ _ s t); auto. intros S D. etransitivity; [|apply LE]. apply (proj2 (k_min _ _ _ _ K)). destruct (S s) eqn:B1, (S t) eqn:B2; try congruence; [split; [exists s|exists t]; auto|split; [exists t|exists s]; auto]. }
  pose proof (k_pos _ _ _ _ K s Hs) as Ps. pose proof (k_pos _ _ _ _ K t Ht) as Pt.
  destruct (N.eqb_spec (d_cut st) 0) as [C0|C0].
  - destruct (Nat.eqb_spec (m_n (d_c st)) 2) as [T2|T2]; [exact FULL|].
    destruct (contract_step G' st k s t [mpos (d_c st) s; mpos (d_c st) t] I MV' N' Hs Ht EQ LE) as (C' & E' & K' & FK).
    + constructor; [intros [X|[]]; auto|constructor; [intros []|constructor]].
    + intros v [<-|[<-|[]]]; auto.
    + left; auto.
    + right; left; auto.
    + cbn. auto.
    + left; auto.
    + rewrite E'. eexists. split; [reflexivity|]. split; [split; [auto|split; [auto|exact K']]|split; [auto|split; [auto|split; [auto|intros P _ _ W0 FU; apply FK; auto]]]].
      intros g _ Eg a b [<-|[<-|[]]] [<-|[<-|[]]]; auto.
  - assert (HC : forall v x w0 r, In (x, w0, r) (nth v (m_rows (d_c st)) []) -> w0 = d_cut st).
    { intros v x w0 r Hx. destruct (k_edges _ _ _ _ K C0 v x w0 r Hx) as [X|X]; [exact X|exfalso]. destruct OD as [Z|O]; [contradiction|]. rewrite <- X, N.odd_mul in O. discriminate O. }
    assert (CN : forall f, proper (m_n (d_c st)) f -> cutw (m_n (d_c st)) (mwt (d_c st)) f <> 0%N) by (intros f Pf; pose proof (k_least _ _ _ _ K f Pf); lia).
    destruct (find_path_tree (d_c st) (d_cut st) (mpos (d_c st) s) (mpos (d_c st) t) (k_valid _ _ _ _ K) C0 HC CN Ps Pt NP) as (P & EP & (G1 & G2 & G3) & Is & It & TI). rewrite EP.
    destruct (Nat.eqb_spec (length P) (m_n (d_c st))) as [T2|T2]; [exact FULL|].
    destruct (contract_step G' st k s t P I MV' N' Hs Ht EQ LE G1 G2 Is It T2) as (C' & E' & K' & FK); [right; auto|].
    rewrite E'. eexists. split; [reflexivity|]. split; [split; [auto|split; [auto|exact K']]|split; [auto|split; [auto|split; [auto|intros P0 _ _ W0 FU; apply FK; auto]]]].
    intros g Eg ES. assert (NZ : cutw (m_n (d_c st)) (mwt (d_c st)) g <> 0%N) by (rewrite Eg; auto). destruct (cutw_pos _ _ _ NZ) as (u & v & Hu & Hv & Gu & Gv & Z).
    apply (TI u v g); [|exact ES]. apply cut_bridge; auto. intros x y Hx Hy D Zxy. apply wt_in in Zxy as (w0 & r & Ixy). pose proof (in_wt _ _ _ _ _ Ixy) as GE. rewrite (HC _ _ _ _ Ixy) in GE. exact GE.
Qed.
End Steps.
