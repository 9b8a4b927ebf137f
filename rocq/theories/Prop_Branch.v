(* Prop_Branch.v - properties C35 and C36: branching in the multiterminal cut solver. *)
From Coq Require Import Permutation.
From Verif Require Import SpecRel P_UnionFind P_Cut P_Mutable P_MutableIO P_Multi P_Kernel P_Kernel3 P_MultiCheck P_Branch P_Branch2 P_Branch3 Prop_Mutable Prop_Kernel.

(** A subproblem C = (graph, terminals, weight deleted on the way to it) whose original terminals are at the
    positions T': its state is valid, its terminal list holds the terminals that still have edges, no edge
    between two terminals is left. *)
Definition subproblem (maps : list (list nat)) (origs : list nat) (C : mg * list (nat * nat) * N) (T' : list nat) : Prop :=
  kstate (fst (fst C)) maps origs T' /\ map fst (snd (fst C)) = filter (fun v => 0 <? length (nth v (m_rows (fst (fst C))) [])) T' /\
  length T' = length origs /\ (forall s h, In s T' -> In h (nth s (m_rows (fst (fst C))) []) -> ~ In (fst (fst h)) T').
(** deleted weight plus optimum *)
Definition value (C : mg * list (nat * nat) * N) (T' : list nat) (c : N) : Prop :=
  exists c', mtopt (m_n (fst (fst C))) (wtm (fst (fst C))) T' c' /\ c = (c' + snd C)%N.
(** c is the least value of the subproblems L *)
Definition least (maps : list (list nat)) (origs : list nat) (L : list (mg * list (nat * nat) * N)) (c : N) : Prop :=
  (exists C T', In C L /\ subproblem maps origs C T' /\ value C T' c) /\
  (forall C T' c', In C L -> subproblem maps origs C T' -> value C T' c' -> (c <= c')%N).

Lemma tgts_In (l : list half) (t : nat) : In t (tgts l) <-> exists h, In h l /\ fst (fst h) = t.
Proof. unfold tgts. rewrite in_map_iff. firstorder. Qed.

Lemma subproblem_pstate maps origs T C T' : length T = length origs -> subproblem maps origs C T' <-> pstate maps origs T C T'.
Proof.
  intro LT. destruct C as [[G ts] w]. unfold subproblem, pstate, noterm. cbn [fst snd]. rewrite LT. split; intros (A & B & C & D); (split; [auto|]; split; [auto|]; split; [auto|]).
  - intros s t Hs Ht I. apply tgts_In in I. destruct I as (h & I & <-). apply (D s h); auto.
  - intros s h Hs Hh I. apply (D s _ Hs I), tgts_In. exists h. auto.
Qed.

(** ** C35, multiBranch: whatever non-terminal vertex next to a live terminal is chosen *)
Theorem C35_multi_branch_partial : forall G maps origs T srt vtx, (forall l, Permutation (srt l) l) -> kstate G maps origs T -> simple_rows G ->
  vtx < m_n G -> ~ In vtx T -> (exists h, In h (nth vtx (m_rows G) []) /\ In (fst (fst h)) T) ->
  exists L, multi_branch_at srt maps origs G (filter (fun v => 0 <? length (nth v (m_rows G) [])) T) vtx = Some L /\
    (forall C, In C L -> exists T', subproblem maps origs C T') /\
    (forall c, mtopt (m_n G) (wtm G) T c <-> least maps origs L c).
Proof.
  intros G maps origs T srt vtx SP KS SI HV NV (h & Ih & Th). assert (LT : length T = length origs) by apply (ks_pos _ _ _ _ KS).
  destruct (multi_branch_at_ok srt SP G maps origs T vtx KS SI HV NV) as (L & E & _ & PS & OP).
  - exists (fst (fst h)). split; [|apply tgts_In; eauto]. apply filter_In. split; [auto|]. apply Nat.ltb_lt.
    apply In_nth_error in Ih. destruct Ih as [e Ih]. destruct h as [[t w] r]. destruct (proj1 (ks_valid _ _ _ _ KS) vtx e t w r Ih) as (_ & _ & SR).
    cbn [fst]. destruct (nth t (m_rows G) []); [destruct r; discriminate SR|cbn; lia].
  - exists L. split; [exact E|]. split.
    + intros C I. destruct (PS C I) as [T' P]. exists T'. apply (subproblem_pstate _ _ T); auto.
    + intro c. rewrite OP. unfold least, value. split.
      * intros [(C & T' & c' & I & P & M & Q) ALL]. split.
        -- exists C, T'. split; [auto|]. split; [apply (subproblem_pstate _ _ T); auto|]. eauto.
        -- intros C1 T1 c1 I1 P1 (c2 & M2 & ->). apply (ALL C1 T1); auto. apply (subproblem_pstate _ _ T); auto.
      * intros [(C & T' & I & P & c' & M & Q) ALL]. split.
        -- exists C, T', c'. split; [auto|]. split; [apply (subproblem_pstate _ _ T); auto|]. auto.
        -- intros C1 T1 c1 I1 P1 M1. apply (ALL C1 T1); auto; [apply (subproblem_pstate _ _ T); auto|eauto].
Qed.
Print Assumptions C35_multi_branch_partial.

(** multiBranch with its choice of the vertex: a neighbour of a terminal of largest degree *)
Theorem C35_heavy_vertex_partial : forall G maps origs T srt, (forall l, Permutation (srt l) l) -> kstate G maps origs T -> simple_rows G ->
  (forall s h, In s T -> In h (nth s (m_rows G) []) -> ~ In (fst (fst h)) T) ->
  (exists t h, In t T /\ In h (nth t (m_rows G) []) /\ snd (fst h) <> 0%N) ->
  exists L, multi_branch srt maps origs G (filter (fun v => 0 <? length (nth v (m_rows G) [])) T) = Some L /\
    (forall C, In C L -> exists T', subproblem maps origs C T') /\
    (forall c, mtopt (m_n G) (wtm G) T c <-> least maps origs L c).
Proof.
  intros G maps origs T srt SP KS SI NT (t & h & Ht & Ih & Wh). unfold multi_branch. set (ts := filter _ T).
  pose proof (ks_valid _ _ _ _ KS) as (V & DG & _).
  destruct (find_heavy_ok G ts) as (v & w & r & I1 & S1 & _).
  { exists t, (fst (fst h)). split; [apply filter_In; split; [auto|]; apply Nat.ltb_lt; destruct (nth t (m_rows G) []); [destruct Ih|cbn; lia]|].
    split; [apply tgts_In; eauto|]. apply In_nth_error in Ih. destruct Ih as [e Ih]. destruct h as [[x wx] rx]. destruct (V t e x wx rx Ih) as (Hx & _ & SR). cbn [fst snd] in *.
    destruct DG as [_ DG]. rewrite (DG x Hx). apply nth_error_In in SR. intro Z.
    enough (X : (wx <= sumN (fun q : half => snd (fst q)) (nth x (m_rows G) []))%N) by (apply Wh, N.le_0_r; etransitivity; [exact X|]; apply N.eq_le_incl, Z).
    revert SR. generalize (nth x (m_rows G) []). induction l as [|q l IH]; intros []; cbn [sumN]; [subst; cbn; lia|specialize (IH H); lia]. }
  destruct (find_heavy G ts) as [b e] eqn:FH. cbn [fst snd] in *. rewrite S1.
  destruct (V b e v w r S1) as (Hv & Nv & SR). apply nth_error_In in S1. apply nth_error_In in SR. assert (Tb : In b T) by (apply filter_In in I1; tauto).
  apply C35_multi_branch_partial; auto.
  - intro Tv. apply (NT b _ Tb S1 Tv).
  - exists (b, w, e). auto.
Qed.
Print Assumptions C35_heavy_vertex_partial.

(* three terminals 0, 1, 2, inner vertices 3-6 *)
Definition br_ops : list mop := [NewOrder 3 0 7; NewOrder 3 1 3; NewOrder 3 4 2; NewOrder 3 5 6; NewOrder 4 1 4; NewOrder 4 2 4; NewOrder 5 2 3; NewOrder 5 4 1; NewOrder 5 6 7; NewOrder 6 0 1].
Definition brg : mg := mg_of 7 br_ops.
Lemma brg_state : kstate brg [] [0; 1; 2] [0; 1; 2].
Proof. destruct (mg_of_valid 7 br_ops eq_refl) as [A [B C]]. apply kstate_of; [exact A|exact C|reflexivity]. Qed.
Lemma brg_simple : simple_rows brg.
Proof.
  intro v. do 7 (destruct v as [|v]; [apply nodupb_ok; vm_compute; reflexivity|]). rewrite (nth_overflow (m_rows brg)) by (vm_compute; lia). constructor.
Qed.
Example c35_hyps : kstate brg [] [0; 1; 2] [0; 1; 2] /\ simple_rows brg /\
  (forall s h, In s [0; 1; 2] -> In h (nth s (m_rows brg) []) -> ~ In (fst (fst h)) [0; 1; 2]) /\
  (exists t h, In t [0; 1; 2] /\ In h (nth t (m_rows brg) []) /\ snd (fst h) <> 0%N).
Proof.
  split; [apply brg_state|]. split; [apply brg_simple|]. split.
  - intros s h Hs Hh I.
    assert (X : forallb (fun s => forallb (fun h : half => negb (isterm [0; 1; 2] (fst (fst h)))) (nth s (m_rows brg) [])) [0; 1; 2] = true) by (vm_compute; reflexivity).
    rewrite forallb_forall in X. specialize (X s Hs). rewrite forallb_forall in X. specialize (X h Hh). apply isterm_In in I. rewrite I in X. discriminate.
  - exists 0, (3, 7%N, 0). split; [left; auto|]. split; [vm_compute; left; reflexivity|]. discriminate.
Qed.
Example c35_run : option_map (map (fun C : mg * list (nat * nat) * N => (m_n (fst (fst C)), snd (fst C), N.to_nat (snd C)))) (multi_branch (fun l => l) [] [0; 1; 2] brg [0; 1; 2]) =
  Some [(6, [(0, 0); (1, 1); (2, 2)], 3); (6, [(0, 0); (1, 1); (2, 2)], 7); (7, [(0, 0); (1, 1); (2, 2)], 10)].
Proof. vm_compute. reflexivity. Qed.

(** ** C35, singleBranch without the degree-three shortcut: the optimum is the better of "edge cut" and "edge
    kept", for every edge that does not join two terminals *)
Theorem C35_single_branch_partial : forall G maps origs T b e t w r, kstate G maps origs T -> simple_rows G -> slot (m_rows G) b e = Some (t, w, r) ->
  ~ (In b T /\ In t T) -> 0 < length T ->
  exists Gc Gk tsk wk Tk, single_cut G b e = Some (Gc, w) /\ single_keep maps origs G b e = Some (Gk, tsk, wk) /\
    kstate Gc maps origs T /\ kstate Gk maps origs Tk /\ map fst tsk = filter (fun v => 0 <? length (nth v (m_rows Gk) [])) Tk /\
    forall cc ck, mtopt (m_n Gc) (wtm Gc) T cc -> mtopt (m_n Gk) (wtm Gk) Tk ck -> mtopt (m_n G) (wtm G) T (N.min (cc + w) (ck + wk)).
Proof.
  intros G maps origs T b e t w r KS SI S NB PT. destruct (single_branch_ok G maps origs T b e t w r KS S SI NB PT) as (Gc & Gk & tsk & wk & Tk & A1 & A2 & A3 & A4 & A5 & _ & A6).
  exists Gc, Gk, tsk, wk, Tk. auto 10.
Qed.
Print Assumptions C35_single_branch_partial.

Example c35_single_hyps : kstate brg [] [0; 1; 2] [0; 1; 2] /\ simple_rows brg /\ slot (m_rows brg) 0 0 = Some (3, 7%N, 0) /\ ~ (In 0 [0; 1; 2] /\ In 3 [0; 1; 2]).
Proof. split; [apply brg_state|]. split; [apply brg_simple|]. split; [vm_compute; reflexivity|]. intros [_ [H|[H|[H|[]]]]]; discriminate H. Qed.
Example c35_single_run : option_map (fun r => (show (fst r), N.to_nat (snd r))) (single_cut brg 0 0) = Some ([[(6, 1, 1)]; [(3, 3, 1); (4, 4, 1)]; [(4, 4, 2); (5, 3, 1)]; [(5, 6, 0); (1, 3, 0); (4, 2, 0)]; [(3, 2, 2); (1, 4, 1); (2, 4, 0); (5, 1, 2)]; [(3, 6, 0); (2, 3, 1); (4, 1, 3); (6, 7, 0)]; [(5, 7, 3); (0, 1, 0)]], [1; 7; 7; 11; 11; 17; 8], 18, 7) /\
  option_map (fun r => (show (fst (fst r)), N.to_nat (snd r))) (single_keep [] [0; 1; 2] brg 0 0) = Some ([[(5, 6, 0); (3, 1, 1); (4, 2, 0)]; [(4, 4, 1)]; [(4, 4, 2); (5, 3, 1)]; [(5, 7, 3); (0, 1, 1)]; [(0, 2, 2); (1, 4, 0); (2, 4, 0); (5, 1, 2)]; [(0, 6, 0); (2, 3, 1); (4, 1, 3); (3, 7, 0)]], [9; 4; 7; 8; 11; 17], 16, 3).
Proof. split; vm_compute; reflexivity. Qed.

(** the model of contractEdge used for branching agrees with the one of C23 wherever that one is defined *)
Theorem C35_contract_edge_agrees : forall G v e G', m_contract_edge G v e = Some G' -> contract_edge_std G v e = Some G'.
Proof. apply contract_edge_agree. Qed.
Print Assumptions C35_contract_edge_agrees.

(** ** C36: with the shortcut the kept branch has exactly the solutions that keep the edge and cut the two
    others, and never a value below that of a solution keeping the edge *)
Theorem C36_degree_three_partial : forall G maps origs T b e t w r G2 w2, kstate G maps origs T -> simple_rows G -> slot (m_rows G) b e = Some (t, w, r) ->
  ~ (In b T /\ In t T) -> degree_three G b e = Some (G2, w2) ->
  exists G' ts' w' T', single_keep3 maps origs G b e = Some (G', ts', w') /\ kstate G' maps origs T' /\
    map fst ts' = filter (fun v => 0 <? length (nth v (m_rows G') [])) T' /\
    (forall f', separates (m_n G') T' f' -> exists f, separates (m_n G) T f /\ f b = f t /\ (mtcost (m_n G) (wtm G) f <= mtcost (m_n G') (wtm G') f' + w')%N) /\
    (forall f, separates (m_n G) T f -> f b = f t -> (forall h, In h (nth b (m_rows G) []) -> fst (fst h) <> t -> f (fst (fst h)) <> f b) ->
       exists f', separates (m_n G') T' f' /\ (mtcost (m_n G') (wtm G') f' + w')%N = mtcost (m_n G) (wtm G) f).
Proof.
  intros G maps origs T b e t w r G2 w2 KS SI S NB E. destruct (degree_three_ok G maps origs T b e t w r G2 w2 KS S SI NB E) as (G' & ts' & w' & T' & A1 & A2 & A3 & A4 & A5 & A6).
  exists G', ts', w', T'. split; [auto|]. split; [auto|]. split; [auto|]. split; [auto|]. intros f F Q NX. apply A6; auto.
  intros x Hx Nx Q2. apply tgts_In in Hx. destruct Hx as (h & Ih & <-). apply (NX h Ih Nx). auto.
Qed.
Print Assumptions C36_degree_three_partial.

(* terminals 0 and 4; 1, 2, 3 a heavy triangle *)
Definition d3_ops : list mop := [NewOrder 0 1 2; NewOrder 0 2 2; NewOrder 0 3 2; NewOrder 1 2 5; NewOrder 2 3 5; NewOrder 3 1 5; NewOrder 1 4 1].
Definition d3g : mg := mg_of 5 d3_ops.
Lemma d3g_state : kstate d3g [] [0; 4] [0; 4].
Proof. destruct (mg_of_valid 5 d3_ops eq_refl) as [A [B C]]. apply kstate_of; [exact A|exact C|reflexivity]. Qed.
Lemma d3g_simple : simple_rows d3g.
Proof.
  intro v. do 5 (destruct v as [|v]; [apply nodupb_ok; vm_compute; reflexivity|]). rewrite (nth_overflow (m_rows d3g)) by (vm_compute; lia). constructor.
Qed.
Example c36_hyps : kstate d3g [] [0; 4] [0; 4] /\ simple_rows d3g /\ slot (m_rows d3g) 0 0 = Some (1, 2%N, 0) /\ ~ (In 0 [0; 4] /\ In 1 [0; 4]) /\
  option_map (fun r => (show (fst r), N.to_nat (snd r))) (degree_three d3g 0 0) = Some ([[(1, 1, 0); (2, 5, 1); (3, 5, 0)]; [(0, 1, 0)]; [(3, 5, 1); (0, 5, 1)]; [(0, 5, 2); (2, 5, 0)]], [11; 1; 10; 10], 8, 4).
Proof.
  split; [apply d3g_state|]. split; [apply d3g_simple|]. split; [vm_compute; reflexivity|]. split; [intros [_ [H|[H|[]]]]; discriminate H|]. vm_compute. reflexivity.
Qed.

(** the optimum is lost: in d3g, where findHeavyVertex picks the edge 0-1, the optimum is 1, but the branch
    cutting it has value 3 and the one keeping it has value 5 *)
Theorem C36_degree_three_refuted : exists G T b e Gc wc Gk tsk wk Tk, kstate G [] T T /\ simple_rows G /\ find_heavy G (live G T) = (b, e) /\
  single_cut G b e = Some (Gc, wc) /\ single_keep3 [] T G b e = Some (Gk, tsk, wk) /\ kstate Gk [] T Tk /\
  mtopt (m_n G) (wtm G) T 1 /\ mtopt (m_n Gc) (wtm Gc) T 1 /\ wc = 2%N /\ mtopt (m_n Gk) (wtm Gk) Tk 0 /\ wk = 5%N.
Proof.
  destruct (single_cut d3g 0 0) as [[Gc wc]|] eqn:Ec; [|vm_compute in Ec; discriminate].
  destruct (degree_three d3g 0 0) as [[G2 w2]|] eqn:E3; [|vm_compute in E3; discriminate].
  destruct (degree_three_ok d3g [] [0; 4] [0; 4] 0 0 1 2%N 0 G2 w2 d3g_state ltac:(vm_compute; reflexivity) d3g_simple ltac:(intros [_ [H|[H|[]]]]; discriminate H) E3)
    as (Gk & tsk & wk & Tk & Ek & Kk & _ & LT & _).
  pose proof (ks_pos _ _ _ _ Kk) as AP. clear E3.
  exists d3g, [0; 4], 0, 0, Gc, wc, Gk, tsk, wk, Tk. split; [apply d3g_state|]. split; [apply d3g_simple|]. split; [vm_compute; reflexivity|].
  split; [auto|]. split; [auto|]. split; [auto|]. vm_compute in Ec. injection Ec as <- <-. vm_compute in Ek. injection Ek as <- <- <-.
  assert (Tk = [0; 1]) as ->.
  { eapply at_positions_fun; [exact AP|]. split; [reflexivity|]. intros [|[|i]] o Ho; [injection Ho as <-; eexists; split; reflexivity..|destruct i; discriminate Ho]. }
  split; [apply (opt_check_ok _ _ _ _ [0; 0; 0; 0; 1]); vm_compute; reflexivity|].
  split; [apply (opt_check_ok _ _ _ _ [0; 0; 0; 0; 1]); vm_compute; reflexivity|]. split; [reflexivity|].
  split; [|reflexivity]. apply (opt_check_ok _ _ _ _ [0; 1; 0; 0]); vm_compute; reflexivity.
Qed.
Print Assumptions C36_degree_three_refuted.
