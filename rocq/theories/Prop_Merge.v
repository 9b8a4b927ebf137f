(* Prop_Merge.v - C76: mergeGraphs (graph_modification.h:29-74), with canonizeCactus (76-171).  Two graphs that represent families of cuts are
   glued at a vertex each; the result represents both families, and the branch for three junctions is not reached. *)
From Verif Require Import SpecCut SpecDyn SpecMutable M_Mutable P_Mutable Prop_Mutable P_Cut P_Crossing P_LocalSearch P_LocalSearch2 P_AllMincuts M_Branch M_StCactus M_Merge P_StCactus9 P_Merge P_Merge2 P_Merge3 P_Merge4 P_Merge5 P_Merge6 P_Merge7.

(** ** C76: G1 represents the cuts of F1, G2 those of F2 (record rep of P_Merge3.v: the cuts of weight c of the graph are exactly those of the
    family, none is smaller, any two vertices are separated by one, members and positions agree, weights c and c/2, no parallel edges).  The
    vertices that are not at v1 in G1 are at v2 in G2, and the cut around v1 belongs to both families or to none.  Then mergeGraphs returns a
    graph that represents the union *)
Theorem C76_merge : forall n c F1 F2 G1 G2 v1 v2 fuel, (0 < c)%N -> family n F1 -> family n F2 -> rep n c F1 G1 -> rep n c F2 G2 -> v1 < m_n G1 -> v2 < m_n G2 ->
  (forall x, x < n -> nth x (m_pos G1) 0 <> v1 -> nth x (m_pos G2) 0 = v2) ->
  (F1 (fun x => nth x (m_pos G1) 0 =? v1) <-> F2 (fun x => nth x (m_pos G1) 0 =? v1)) ->
  exists M, merge_graphs fuel G1 v1 G2 v2 c = Some M /\ rep n c (fun Y => F1 Y \/ F2 Y) M /\ (lean n c G1 -> lean n c G2 -> lean n c M).
Proof.
  intros n c F1 F2 G1 G2 v1 v2 fuel Pc Fa1 Fa2 R1 R2 Hv1 Hv2 Out Ag. destruct (merge_rep n c Pc F1 F2 G1 G2 R1 R2 Fa1 Fa2 v1 v2 Hv1 Hv2 Out Ag fuel) as (M & E & R). exists M. split; [exact E|]. split; [exact R|].
  intros L1 L2. eapply (merge_lean n c Pc F1 F2 G1 G2); eauto.
Qed.
Print Assumptions C76_merge.

(** ** the number of junctions that canonizeCactus computes (graph_modification.h:78-103) is exact and its exit(1) is not reached: every degree of such a
    graph is a multiple of c *)
Theorem C76_junctions : forall n c F G v, (0 < c)%N -> rep n c F G -> v < m_n G -> exists j, wdeg (m_n G) (wt (adj (m_rows G))) v = (j * c)%N.
Proof.
  intros n c F G v Pc R Hv. destruct (rep_degree n c Pc F G R v Hv) as [j E]. exists j. rewrite <- cutw_single by auto. exact E.
Qed.
Print Assumptions C76_junctions.

(* the vertex 3 against 0, 1, 2 in one graph; in the other a triangle of 0, 1, 2 with edges of weight 1 and an edge of weight 2 from 0 to 3 *)
Definition mT0 : mg := mg_of 2 [NewEdge 0 1 2].
Definition mT : mg := mk_mg (m_rows mT0) (m_deg mT0) (m_part mT0) (m_cut mT0) [1; 1; 1; 0] [[3]; [0; 1; 2]] 2 (m_ne mT0) (m_pc mT0) 4.
Definition mN0 : mg := mg_of 4 [NewEdge 0 1 1; NewEdge 1 2 1; NewEdge 0 2 1; NewEdge 0 3 2].
Definition mN : mg := mk_mg (m_rows mN0) (m_deg mN0) (m_part mN0) (m_cut mN0) [0; 1; 2; 3] [[0]; [1]; [2]; [3]] 4 (m_ne mN0) (m_pc mN0) 4.
Definition FT (Y : nat -> bool) : Prop := Y 0 = Y 1 /\ Y 1 = Y 2 /\ Y 2 <> Y 3.
Definition FN (Y : nat -> bool) : Prop := FT Y \/ (Y 0 = Y 3 /\ ~ (Y 0 = Y 1 /\ Y 1 = Y 2)).

Definition bx (a b : bool) (w : N) : N := if xorb a b then w else 0%N.
Lemma mT_cut f : gcut mT f = bx (f 0) (f 1) 2.
Proof. unfold gcut, cutw. vm_compute. destruct (f 0), (f 1); reflexivity. Qed.
Lemma mN_cut f : gcut mN f = (bx (f 0%nat) (f 1%nat) 1 + bx (f 1%nat) (f 2%nat) 1 + bx (f 0%nat) (f 2%nat) 1 + bx (f 0%nat) (f 3%nat) 2)%N.
Proof. unfold gcut, cutw. vm_compute. destruct (f 0), (f 1), (f 2), (f 3); reflexivity. Qed.

Lemma four_family (F : (nat -> bool) -> Prop) : (forall Y Y', Y 0 = Y' 0 -> Y 1 = Y' 1 -> Y 2 = Y' 2 -> Y 3 = Y' 3 -> F Y -> F Y') -> (forall Y, F Y -> ~ (Y 0 = Y 1 /\ Y 1 = Y 2 /\ Y 2 = Y 3)) -> family 4 F.
Proof.
  intros A B. constructor; [intros Y Y' E H; apply (A Y); auto; apply E; lia|]. intros Y H. specialize (B Y H).
  assert (Q : (exists x, x < 4 /\ Y x = true) /\ (exists x, x < 4 /\ Y x = false)); [|exact Q].
  destruct (Y 0) eqn:E0, (Y 1) eqn:E1, (Y 2) eqn:E2, (Y 3) eqn:E3; try (exfalso; apply B; auto; fail);
    (split; [first [exists 0; split; [lia|assumption]|exists 1; split; [lia|assumption]|exists 2; split; [lia|assumption]|exists 3; split; [lia|assumption]]
            |first [exists 0; split; [lia|assumption]|exists 1; split; [lia|assumption]|exists 2; split; [lia|assumption]|exists 3; split; [lia|assumption]]]).
Qed.
Lemma FT_family : family 4 FT.
Proof. apply four_family; unfold FT; [intros Y Y' A B C D (E1 & E2 & E3); repeat split; congruence|intros Y (_ & _ & A) (_ & _ & B); auto]. Qed.
Lemma FN_family : family 4 FN.
Proof.
  apply four_family; unfold FN, FT.
  - intros Y Y' A B C D [(E1 & E2 & E3)|[E1 E2]]; [left; repeat split; congruence|right; split; [congruence|]]. intros [E3 E4]. apply E2. split; congruence.
  - intros Y [(_ & _ & A)|[_ A]] (B & C & D); auto.
Qed.

Lemma refit G p cs l o : mvalid G -> mvalid (mk_mg (m_rows G) (m_deg G) (m_part G) (m_cut G) p cs l (m_ne G) (m_pc G) o).
Proof. intro V. exact V. Qed.
Lemma lt4 x : x < 4 -> x = 0 \/ x = 1 \/ x = 2 \/ x = 3. Proof. lia. Qed.
Lemma lt2 x : x < 2 -> x = 0 \/ x = 1. Proof. lia. Qed.
Lemma mT_rep : rep 4 2 FT mT.
Proof.
  constructor.
  - unfold mT. apply refit. unfold mT0. assert (X := mg_of_valid 2 [NewEdge 0 1 2] eq_refl). exact (proj1 X).
  - reflexivity.
  - reflexivity.
  - reflexivity.
  - intros x Hx. destruct (lt4 x Hx) as [-> |[-> |[-> | ->]]]; vm_compute; lia.
  - split; [vm_compute; lia|]. intros p x Hp. destruct (lt2 p Hp) as [-> | ->]; cbn; (split; [intros H; repeat destruct H as [H|H]; subst; try (split; [lia|reflexivity]); destruct H|intros [Hx E]; destruct (lt4 x Hx) as [-> |[-> |[-> | ->]]]; auto; discriminate E]).
  - do 3 (split; [reflexivity|]). intros v t w r I. destruct v as [|[|v]]; cbn in I; [destruct I as [I|[]]|destruct I as [I|[]]|destruct v; destruct I]; injection I as <- <- <-; auto.
  - intro v. destruct v as [|[|v]]; cbn; [repeat constructor; cbn; intuition|repeat constructor; cbn; intuition|destruct v; constructor].
  - intros f P. change (2 <= gcut mT f)%N. rewrite mT_cut. destruct P as [(a & Ha & A) (b & Hb & B)]. destruct (lt2 a Ha) as [-> | ->], (lt2 b Hb) as [-> | ->]; rewrite ?A, ?B; try congruence; cbn; lia.
  - intros a b Ha Hb Nab. exists (fun x => x =? 0). split; [destruct (lt2 a Ha) as [-> | ->], (lt2 b Hb) as [-> | ->]; cbn; congruence|reflexivity].
  - intros f P E. rewrite mT_cut in E. unfold FT. cbn [m_pos mT nth]. destruct (f 0), (f 1); try discriminate E; repeat split; congruence.
  - intros Y (A & B & C). exists (fun x => if x =? 0 then Y 3 else Y 0). split; [rewrite mT_cut; cbn; rewrite A, B; destruct (Y 2), (Y 3); auto; congruence|]. intros x Hx. destruct (lt4 x Hx) as [-> |[-> |[-> | ->]]]; cbn; congruence.
Qed.
Lemma mN_rep : rep 4 2 FN mN.
Proof.
  constructor.
  - unfold mN. apply refit. unfold mN0. assert (X := mg_of_valid 4 [NewEdge 0 1 1; NewEdge 1 2 1; NewEdge 0 2 1; NewEdge 0 3 2] eq_refl). exact (proj1 X).
  - reflexivity.
  - reflexivity.
  - reflexivity.
  - intros x Hx. destruct (lt4 x Hx) as [-> |[-> |[-> | ->]]]; vm_compute; lia.
  - split; [vm_compute; lia|]. intros p x Hp. destruct (lt4 p Hp) as [-> |[-> |[-> | ->]]]; cbn; (split; [intros H; repeat destruct H as [H|H]; subst; try (split; [lia|reflexivity]); destruct H|intros [Hx E]; destruct (lt4 x Hx) as [-> |[-> |[-> | ->]]]; auto; discriminate E]).
  - do 3 (split; [reflexivity|]). intros v t w r I. destruct v as [|[|[|[|v]]]]; cbn in I; [| | | |destruct v; destruct I]; repeat (destruct I as [I|I]; [injection I as <- <- <-; auto|]); destruct I.
  - intro v. destruct v as [|[|[|[|v]]]]; cbn; [| | | |destruct v; constructor]; repeat constructor; cbn; intuition congruence.
  - intros f P. change (2 <= gcut mN f)%N. rewrite mN_cut. destruct P as [(a & Ha & A) (b & Hb & B)]. destruct (lt4 a Ha) as [-> |[-> |[-> | ->]]], (lt4 b Hb) as [-> |[-> |[-> | ->]]]; rewrite ?A, ?B; try congruence; destruct (f 0), (f 1), (f 2), (f 3); cbn; try lia; congruence.
  - intros a b Ha Hb Nab. destruct (lt4 a Ha) as [-> |[-> |[-> | ->]]], (lt4 b Hb) as [-> |[-> |[-> | ->]]]; try congruence;
      first [exists (fun x => x =? 1); split; [cbn; congruence|reflexivity]|exists (fun x => x =? 2); split; [cbn; congruence|reflexivity]|exists (fun x => x =? 3); split; [cbn; congruence|reflexivity]].
  - intros f P E. rewrite mN_cut in E. unfold FN, FT. cbn [m_pos mN nth]. destruct (f 0), (f 1), (f 2), (f 3); try discriminate E; first [left; repeat split; congruence|right; split; [reflexivity|intros [A B]; congruence]].
  - intros Y H. exists Y. split.
    + rewrite mN_cut. unfold FN, FT in H. destruct (Y 0), (Y 1), (Y 2), (Y 3); try reflexivity; exfalso; destruct H as [(A & B & C)|[A B]]; try congruence; apply B; auto.
    + intros x Hx. destruct (lt4 x Hx) as [-> |[-> |[-> | ->]]]; reflexivity.
Qed.

(* the vertex of weight 2 is contracted away: the merged graph has the vertices of mN; 3 is where it was in mT *)
Example c76_hyps : rep 4 2 FT mT /\ rep 4 2 FN mN /\ family 4 FT /\ family 4 FN /\ (forall x, x < 4 -> nth x (m_pos mT) 0 <> 1 -> nth x (m_pos mN) 0 = 3) /\
  (FT (fun x => nth x (m_pos mT) 0 =? 1) <-> FN (fun x => nth x (m_pos mT) 0 =? 1)).
Proof.
  split; [exact mT_rep|]. split; [exact mN_rep|]. split; [exact FT_family|]. split; [exact FN_family|]. split.
  - intros x Hx. destruct (lt4 x Hx) as [-> |[-> |[-> | ->]]]; cbn; congruence.
  - unfold FN, FT. cbn. split; [intro H; left; exact H|]. intros _. repeat split; discriminate.
Qed.
Example c76_run : option_map (fun M => (m_rows M, m_pos M, m_cont M)) (merge_graphs 0 mT 1 mN 3 2) =
  Some ([[(2, 2%N, 2)]; [(2, 1%N, 1); (3, 1%N, 1)]; [(3, 1%N, 0); (1, 1%N, 0); (0, 2%N, 0)]; [(2, 1%N, 0); (1, 1%N, 1)]], [2; 3; 1; 0], [[3]; [2]; [0]; [1]]).
Proof. vm_compute. reflexivity. Qed.
