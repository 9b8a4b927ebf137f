(* P_Bnb2.v - branch and bound: simple graphs stay simple when terminal edges are deleted; the children of multiBranch; problems linked to the original graph. *)
From Coq Require Import Permutation.
From Verif Require Import SpecFlow P_Cut P_Mutable P_Multi P_Kernel P_KernelC P_Kernel3 P_Kernel4 P_Kernel5 P_Iso P_Branch P_Branch2 P_Branch3 P_IsoFlow P_IsoFlow2 P_IsoFlow3 P_IsoFlow4 Prop_Kernel Prop_Branch M_Bnb P_Bnb.

(** ** finish_terms: edges not joining two terminals stay, no edge is new *)
Lemma del_row_simple ts term : forall k G w0 G' w', mvalid G -> simple (m_rows G) -> del_row k ts term (G, w0) = Some (G', w') -> mvalid G' /\ simple (m_rows G').
Proof.
  induction k as [|e IH]; intros G w0 G' w' V SI E; cbn [del_row] in E.
  - injection E as <- _. auto.
  - cbn [fst snd] in E. destruct (slot (m_rows G) term e) as [[[t w] r]|] eqn:S; [|discriminate E]. destruct (isterm ts t); [|eapply IH; eauto].
    destruct (delete_edge_ok G term e t w r V S) as (G1 & E1 & V1 & _). rewrite E1 in E. apply (IH G1 (w0 + w)%N G' w' V1); [|exact E]. apply (proj2 (delete_edge_tgts G term e t w r G1 V S E1)). exact SI.
Qed.
Lemma del_terms_simple ts : forall us G w0 G' w', mvalid G -> simple (m_rows G) -> del_terms us ts (G, w0) = Some (G', w') -> mvalid G' /\ simple (m_rows G').
Proof.
  induction us as [|t us IH]; intros G w0 G' w' V SI E; cbn [del_terms] in E.
  - injection E as <- _. auto.
  - cbn [fst] in E. destruct (t <? m_n G); [|discriminate E]. destruct (del_row _ ts t (G, w0)) as [[G1 w1]|] eqn:D; [|discriminate E].
    destruct (del_row_simple _ _ _ _ _ _ _ V SI D) as [V1 S1]. eapply IH; eauto.
Qed.

Lemma finish_terms_rest G maps origs T w0 G' ts' w' : kstate G maps origs T -> finish_terms maps origs G w0 = Some (G', ts', w') ->
  (simple (m_rows G) -> simple (m_rows G')) /\
  (forall a t, In t (tgts (nth a (m_rows G') [])) -> In t (tgts (nth a (m_rows G) []))) /\
  (forall a b, a < m_n G -> b < m_n G -> ~ (In a T /\ In b T) -> wt (adj (m_rows G')) a b = wt (adj (m_rows G)) a b).
Proof.
  intros KS E. unfold finish_terms in E. pose proof KS as [A1 A2 A3 A4 A5 A6 A7 A8].
  destruct (set_terminals_ok G maps origs T 0 A6 A7) as (L1 & E1 & EL1). rewrite E1, EL1 in E.
  destruct (del_term_edges_ok G (live G T) A1) as (G2 & w2 & E2 & D & _); [intros t Ht; apply filter_In in Ht; apply A7; tauto|]. rewrite E2 in E.
  destruct (set_terminals G2 maps origs 0) as [ts2|] eqn:E3; [|discriminate E]. injection E as <- <- _. split; [|split].
  - intro SI. unfold del_term_edges in E2. eapply del_terms_simple; [exact A1|exact SI|exact E2].
  - intros a t I. apply In_tgts in I. destruct I as [b I]. apply In_tgts. apply (d_tgt _ _ _ _ _ D a b t I).
  - intros a b Ha Hb N. apply (d_keep _ _ _ _ _ D); auto. intros [X Y]. apply filter_In in X. apply filter_In in Y. tauto.
Qed.

(** ** the children of multiBranch *)
Lemma collect_In {A B} (g : A -> option B) : forall l L y, collect (map g l) = Some L -> In y L -> exists x, In x l /\ g x = Some y.
Proof.
  induction l as [|a l IH]; intros L y E I; cbn [map collect] in E; [injection E as <-; destruct I|].
  destruct (g a) as [b|] eqn:Q; [|discriminate E]. destruct (collect (map g l)) as [L'|] eqn:C; [|discriminate E]. injection E as <-.
  destruct I as [<-|I]; [exists a; split; [left; auto|auto]|]. destruct (IH L' y eq_refl I) as (x & Hx & X). exists x. split; [right; auto|auto].
Qed.

Theorem multi_branch_lifts G maps origs T srt L : (forall l, Permutation (srt l) l) -> kstate G maps origs T -> simple_rows G ->
  (forall s h, In s T -> In h (nth s (m_rows G) []) -> ~ In (fst (fst h)) T) ->
  (exists t h, In t T /\ In h (nth t (m_rows G) []) /\ snd (fst h) <> 0%N) ->
  multi_branch srt maps origs G (live G T) = Some L ->
  forall C T', In C L -> kstate (fst (fst C)) maps origs T' -> lifts G T (fst (fst C)) T' (snd C) /\ set_terminals (fst (fst C)) maps origs 0 = Some (snd (fst C)).
Proof.
  intros SP KS SI NT (t & h & Ht & Ih & Wh) E C T' I K. unfold multi_branch in E. set (ts := live G T) in *.
  pose proof (ks_valid _ _ _ _ KS) as (V & DG & _).
  destruct (find_heavy_ok G ts) as (v & w & r & I1 & S1 & _).
  { exists t, (fst (fst h)). split; [apply filter_In; split; [auto|]; apply Nat.ltb_lt; destruct (nth t (m_rows G) []); [destruct Ih|cbn; lia]|].
    split; [apply tgts_In; eauto|]. apply In_nth_error in Ih. destruct Ih as [e Ih]. destruct h as [[x wx] rx]. destruct (V t e x wx rx Ih) as (Hx & _ & SR). cbn [fst snd] in *.
    destruct DG as [_ DG]. rewrite (DG x Hx). apply nth_error_In in SR. intro Z.
    enough (X : (wx <= sumN (fun q : half => snd (fst q)) (nth x (m_rows G) []))%N) by (apply Wh, N.le_0_r; etransitivity; [exact X|]; apply N.eq_le_incl, Z).
    revert SR. generalize (nth x (m_rows G) []). induction l as [|q l IH]; intros []; cbn [sumN]; [subst; cbn; lia|specialize (IH H); lia]. }
  destruct (find_heavy G ts) as [b e] eqn:FH. cbn [fst snd] in *. rewrite S1 in E.
  destruct (V b e v w r S1) as (Hv & Nv & SR). apply nth_error_In in S1. apply nth_error_In in SR. assert (Tb : In b T) by (apply filter_In in I1; tauto).
  assert (NV : ~ In v T) by (intro Tv; apply (NT b _ Tb S1 Tv)).
  unfold multi_branch_at in E. destruct (collect_In _ _ _ _ E I) as (x & Ix & Ex).
  apply (child_lifts G maps origs T v x C T' KS SI Hv NV); [|exact Ex|exact K].
  destruct x as [c|]; [|auto].
  assert (AD : exists t0, In t0 ts /\ In t0 (tgts (nth v (m_rows G) []))) by (exists b; split; [auto|]; apply tgts_In; exists (b, w, e); auto).
  apply (bt_in srt SP G maps origs T v KS SI) in Ix; [|solve [auto]..]. destruct Ix as [(t0 & Q & I0 & _)|(Q & _)]; [injection Q as <-; exact I0|discriminate Q].
Qed.

(** ** a problem and the original graph G0 *)
Section Link.
Context (G0 : mg) (origs : list nat).
Let n0 := m_n G0.
Let W0 := wt (adj (m_rows G0)).

(** position of the original vertex x in the graph of the problem *)
Definition where_is (G : mg) (maps : list (list nat)) (x : nat) : nat :=
  match mapped maps x with Some y => nth y (m_pos G) 0 | None => 0 end.
(** every original vertex has a position; an assignment of the problem costs at most del more in the original graph *)
Definition linked_to (G : mg) (maps : list (list nat)) (T : list nat) (del : N) : Prop :=
  (forall x, x < n0 -> exists y, mapped maps x = Some y /\ y < length (m_pos G) /\ nth y (m_pos G) 0 < m_n G) /\
  forall f, separates (m_n G) T f -> (mtcost n0 W0 (fun x => f (where_is G maps x)) <= del + mtcost (m_n G) (wt (adj (m_rows G))) f)%N.

Lemma mtcost_ext n W f f' : (forall v, v < n -> f v = f' v) -> mtcost n W f = mtcost n W f'.
Proof. intro H. unfold mtcost. apply bsum_ext. intros u Hu. apply bsum_ext. intros v Hv. rewrite (H u Hu), (H v Hv). reflexivity. Qed.

Lemma linked_lifts G maps T G' T' del w : linked_to G maps T del -> lifts G T G' T' w -> linked_to G' maps T' (del + w).
Proof.
  intros [A B] (g & LP & PS & RG & C). split.
  - intros x Hx. destruct (A x Hx) as (y & M & Ly & Lp). exists y. split; [exact M|]. split; [lia|]. rewrite PS by auto. apply RG, Lp.
  - intros f F. destruct (C f F) as [F1 Q1]. specialize (B _ F1). cbn beta in B.
    rewrite (mtcost_ext n0 W0 (fun x => f (where_is G' maps x)) (fun x => f (g (where_is G maps x)))); [lia|].
    intros x Hx. unfold where_is. destruct (A x Hx) as (y & M & Ly & Lp). rewrite M, PS by auto. reflexivity.
Qed.

(** a solution: a block for every vertex, the i-th terminal in block i *)
Definition is_sol (sol : list nat) : Prop := length sol = n0 /\ separates n0 origs (fun v => nth v sol 0).
Definition scost (sol : list nat) : N := mtcost n0 W0 (fun v => nth v sol 0).

Lemma get_sol_ok G maps k : (forall x, x < n0 -> exists y, mapped maps x = Some y /\ y < length (m_pos G) /\ nth y (m_pos G) 0 < m_n G) -> length (m_part G) = m_n G ->
  (forall v, v < m_n G -> nth v (m_part G) 0 < k) ->
  forall c n, n + c <= n0 -> get_sol G maps k c n = Some (map (fun x => nth (where_is G maps x) (m_part G) 0) (seq n c)).
Proof.
  intros A LP RG. induction c as [|c IH]; intros n H; cbn [get_sol seq map]; [reflexivity|].
  destruct (A n ltac:(lia)) as (y & M & Ly & Lp). rewrite M. rewrite (nth_error_nth' _ 0 Ly). rewrite (nth_error_nth' (m_part G) 0) by lia.
  destruct (Nat.ltb_spec (nth (nth y (m_pos G) 0) (m_part G) 0) k) as [L|L]; [|specialize (RG _ Lp); lia].
  rewrite IH by lia. cbn [option_map]. unfold where_is at 2. rewrite M. reflexivity.
Qed.

Lemma nth_map_seq (f : nat -> nat) n v : v < n -> nth v (map f (seq 0 n)) 0 = f v.
Proof. intro H. rewrite (nth_indep _ 0 (f 0)) by (rewrite map_length, seq_length; auto). rewrite map_nth, seq_nth by auto. reflexivity. Qed.

Theorem get_solution_ok G maps T del ts up lo : kstate G maps origs T -> (forall t, In t origs -> t < n0) -> linked_to G maps T del -> separates (m_n G) T (fun v => nth v (m_part G) 0) ->
  exists sol, get_solution n0 (length origs) (mk_prob G ts maps up lo del) = Some sol /\ is_sol sol /\
    (scost sol <= del + mtcost (m_n G) (wt (adj (m_rows G))) (fun v => nth v (m_part G) 0%nat))%N.
Proof.
  intros KS LO [A B] SEP. pose proof (ks_pos _ _ _ _ KS) as [LT AP].
  exists (map (fun x => nth (where_is G maps x) (m_part G) 0) (seq 0 n0)). split; [|split].
  - unfold get_solution. cbn [p_g p_maps]. apply get_sol_ok; [exact A|apply (ks_part _ _ _ _ KS)| |lia]. rewrite <- LT. apply SEP.
  - split; [rewrite map_length, seq_length; auto|]. split.
    + intros v Hv. rewrite nth_map_seq by auto. rewrite <- LT. apply SEP. unfold where_is. destruct (A v Hv) as (y & -> & _ & L). exact L.
    + intros i Hi. assert (Ho : nth i origs 0 < n0) by (apply LO, nth_In, Hi). rewrite nth_map_seq by auto.
      destruct (AP i (nth i origs 0) (nth_error_nth' origs 0 Hi)) as (o' & M & E). unfold where_is. rewrite M. rewrite (nth_error_nth _ _ 0 E). apply SEP. lia.
  - unfold scost. rewrite (mtcost_ext n0 W0 _ (fun x => nth (where_is G maps x) (m_part G) 0)) by (intros v Hv; exact (nth_map_seq (fun x => nth (where_is G maps x) (m_part G) 0) n0 v Hv)). exact (B _ SEP).
Qed.

Theorem flow_value_sol sol : mvalid G0 -> (forall t, In t origs -> t < n0) -> is_sol sol -> flow_value G0 origs sol = Some (scost sol).
Proof.
  intros V LO [L [S1 S2]]. apply (flow_value_ok G0 origs sol V L LO). split; [exact S1|]. split; [|reflexivity].
  intros i Hi. exists i. split; [split; [auto|apply S2; auto]|]. intros j [Hj Ej]. rewrite S2 in Ej by auto. auto.
Qed.
End Link.
