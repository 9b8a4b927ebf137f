(* Prop_Iso.v - properties C37, C52 and C53: isolating cuts in the multiterminal cut solver. *)
From Coq Require Import Permutation.
From Verif Require Import SpecRel P_UnionFind SpecFlow P_Cut P_Mutable P_Multi P_Kernel P_KernelC P_Kernel3 P_MultiCheck P_Iso M_IsoFlow P_Flow6 P_IsoFlow P_IsoFlow2 P_IsoFlow3 P_IsoFlow4 Prop_Mutable Prop_Kernel.

(** ** C37: maximumIsolatingFlow, with the flows in threads or one after the other ([par]), for every order of
    vertex selection [pick], every schedule [gl] of global relabelings and every order [ord] of the hash sets.
    The terminals marked as having a valid flow have to be minimum isolating sets ([flags_ok]); multiBranch
    marks no terminal *)
Theorem C37_isolating_flow : forall pick gl par ord maps origs G T old deleted, (forall l, Permutation (ord l) l) -> (forall i k q, q <> [] -> In (pick i k q) q) ->
  kstate G maps origs T -> 0 < length T -> flags_ok G T old ->
  exists F, forall fuel, F <= fuel -> exists G' ts' up lo T', isolating_flow fuel pick gl par ord maps origs G old deleted = Some (G', ts', up, lo) /\
    kstate G' maps origs T' /\ map t_at ts' = filter (fun v => 0 <? length (nth v (m_rows G') [])) T' /\
    (* contracting the blocks keeps the optimum *)
    keeps_optimum G T G' T' 0 /\
    (* the bounds *)
    (forall c, mtopt (m_n G) (wtm G) T c -> (lo <= deleted + c)%N /\ (deleted + c <= up)%N) /\
    (* the partition indices are a solution, and its value is covered by the upper bound *)
    separates (m_n G') T' (fun v => nth v (m_part G') 0) /\ (deleted + mtcost (m_n G') (wtm G') (fun v => nth v (m_part G') 0%nat) <= up)%N /\
    (* the flags are right afterwards *)
    flags_ok G' T' ts'.
Proof.
  intros pick gl par ord maps origs G T old deleted OP Hp KS PT FO.
  destruct (isolating_flow_ok pick gl par ord maps origs G T old deleted OP Hp KS PT FO) as (F & H). exists F. intros fuel Hf.
  destruct (H fuel Hf) as (G' & ts' & up & lo & T' & E & A1 & A2 & A3 & A4 & A5 & A6 & A7). exists G', ts', up, lo, T'. split; [exact E|]. split; [exact A1|]. split; [exact A2|]. split; [|split; [|split; [exact A5|split; [exact A6|]]]].
  - intro c. rewrite A3. split; [intro M; exists c; split; [auto|lia]|intros (c' & M & ->); rewrite N.add_0_r; auto].
  - intros c M. apply A3 in M. destruct M as [[f [Ff Ef]] L]. split; [rewrite <- Ef; auto|]. specialize (L _ A5). eapply N.le_trans; [|exact A6]. apply N.add_le_mono_l. exact L.
  - intros p i _ Hp'. apply A7. auto.
Qed.
Print Assumptions C37_isolating_flow.

(* three terminals 0, 1, 2 around a triangle 3, 4, 5 with heavy edges to 0 and 1, and an isolated terminal 6 *)
Definition if_ops : list mop := [NewOrder 0 3 5; NewOrder 1 4 6; NewOrder 2 5 1; NewOrder 3 4 2; NewOrder 4 5 2; NewOrder 5 3 3].
Definition ifg : mg := mg_of 7 if_ops.
Lemma ifg_state : kstate ifg [] [0; 1; 6; 2] [0; 1; 6; 2].
Proof. destruct (mg_of_valid 7 if_ops eq_refl) as [A [B C]]. apply kstate_of; [exact A|exact C|reflexivity]. Qed.
Example c37_hyps : (forall l : list nat, Permutation ((fun l => l) l) l) /\ (forall i k q, q <> [] -> In ((fun (_ _ : nat) (q : list nat) => hd 0 q) i k q) q) /\
  kstate ifg [] [0; 1; 6; 2] [0; 1; 6; 2] /\ 0 < length [0; 1; 6; 2] /\ flags_ok ifg [0; 1; 6; 2] [(0, 0, true); (1, 1, true); (2, 3, true)].
Proof.
  split; [reflexivity|]. split; [intros i k [|x q] H; [congruence|left; reflexivity]|]. split; [apply ifg_state|]. split; [cbn; lia|].
  intros p i [H|[H|[H|[]]]]; discriminate H.
Qed.
Definition show_iso (r : option (mg * list term * N * N)) := option_map (fun r => match r with (G, ts, up, lo) => (show G, m_part G, ts, N.to_nat up, N.to_nat lo) end) r.
Example c37_run : show_iso (isolating_flow 100 (fun _ _ q => hd 0 q) (fun _ _ => false) true (fun l => l) [] [0; 1; 6; 2] ifg [(0, 0, true); (1, 1, true); (2, 3, true)] 10) =
  Some ([[(1, 4, 0); (2, 1, 0)]; [(0, 4, 0)]; [(0, 1, 1)]; []], [5; 4; 1; 0], 4, [0; 1; 3; 2], [(0, 0, false); (1, 1, false); (2, 3, false)], 15, 15).
Proof. vm_compute. reflexivity. Qed.

(** ** C52: maximumSTFlow solves a problem with two terminals that have edges (and any number that have none) *)
Theorem C52_st_flow : forall pick gl maps origs G T old ts deleted, (forall k q, q <> [] -> In (pick k q) q) -> kstate G maps origs T ->
  set_terms G maps origs old = Some ts -> length ts = 2 ->
  exists F, forall fuel, F <= fuel -> exists G' up, st_flow fuel pick gl maps origs G ts deleted = Some (G', up) /\
    kstate G' maps origs T /\ m_rows G' = m_rows G /\
    separates (m_n G) T (fun v => nth v (m_part G') 0) /\
    up = (deleted + mtcost (m_n G) (wtm G) (fun v => nth v (m_part G') 0%nat))%N /\
    mtopt (m_n G) (wtm G) T (mtcost (m_n G) (wtm G) (fun v => nth v (m_part G') 0)).
Proof. intros. eapply st_flow_ok; eauto. Qed.
Print Assumptions C52_st_flow.

Example c52_hyps : kstate ifg [] [0; 6; 2] [0; 6; 2] /\ set_terms ifg [] [0; 6; 2] [] = Some [(0, 0, true); (2, 2, true)].
Proof. split; [|reflexivity]. destruct (mg_of_valid 7 if_ops eq_refl) as [A [B C]]. apply kstate_of; [exact A|exact C|reflexivity]. Qed.
Example c52_run : option_map (fun r => (m_part (fst r), N.to_nat (snd r))) (st_flow 100 (fun _ q => hd 0 q) (fun _ => false) [] [0; 6; 2] ifg [(0, 0, true); (2, 2, true)] 10) = Some ([0; 0; 2; 0; 0; 0; 1], 11).
Proof. vm_compute. reflexivity. Qed.

(** ** C53: a round of nonTerminalFlow keeps the optimum whenever the source sets of its flows are pairwise
    disjoint; one flow is enough for that.  For the start vertices of 117-188 in general the claim is false *)
Theorem C53_nonterminal_flow_partial : forall (pick : nat -> nat -> list nat -> nat) gl rs ord maps origs G T, (forall l, Permutation (ord l) l) -> (forall i k q, q <> [] -> In (pick i k q) q) ->
  kstate G maps origs T -> 0 < length T -> (forall r, In r rs -> r < m_n G) ->
  exists F sets, map fst sets = rs /\
    (forall fuel, F <= fuel -> forall r l, In (r, l) sets ->
      exists x, solve_max_flow fuel (pick r) (gl r) (m_rows G) (filter (fun v => 0 <? length (nth v (m_rows G) [])) T ++ [r]) (length (filter (fun v => 0 <? length (nth v (m_rows G) [])) T)) = Some (x, l)) /\
    ((forall i j, i < j < length sets -> forall v, In v (snd (nth i sets (0, []))) -> ~ In v (snd (nth j sets (0, [])))) -> forall fuel, F <= fuel ->
      exists G' ts' w T', rule_step (fun G ts => nonterminal_flow fuel pick gl G ts rs (uf_init (m_n G))) ord maps origs G = Some (G', ts', w) /\ kstate G' maps origs T' /\
        map fst ts' = filter (fun v => 0 <? length (nth v (m_rows G') [])) T' /\ keeps_optimum G T G' T' w).
Proof.
  intros pick gl rs ord maps origs G T OP Hp KS PT Hr. destruct (nonterminal_rule_ok pick gl rs ord maps origs G T OP Hp KS PT Hr) as (F & ls & A & B & C).
  exists F, ls. split; [exact A|]. split; [exact B|]. intros D. apply C. clear - D. unfold disjoint_sets. induction ls as [|p ls IH]; constructor.
  - apply Forall_forall. intros q Hq v Hv. apply In_nth with (d := (0, [])) in Hq. destruct Hq as (j & Hj & <-). apply (D 0 (S j)); [cbn; lia|exact Hv].
  - apply IH. intros i j Hij. apply (D (S i) (S j)). cbn. lia.
Qed.
Print Assumptions C53_nonterminal_flow_partial.

(* the path 0 - 1 - 2 - 3 - 4 with terminals 0 and 4 *)
Definition nt_ops : list mop := [NewOrder 0 1 10; NewOrder 1 2 1; NewOrder 2 3 1; NewOrder 3 4 10].
Definition ntg : mg := mg_of 5 nt_ops.
Lemma ntg_state : kstate ntg [] [0; 4] [0; 4].
Proof. destruct (mg_of_valid 5 nt_ops eq_refl) as [A [B C]]. apply kstate_of; [exact A|exact C|reflexivity]. Qed.
Definition nt_rule (rs : list nat) := rule_step (fun G ts => nonterminal_flow 100 (fun _ _ q => hd 0 q) (fun _ _ => false) G ts rs (uf_init (m_n G))) (fun l => l) [] [0; 4] ntg.
Example c53_hyps : (forall r, In r [1] -> r < m_n ntg) /\ forall r, In r [1; 3] -> r < m_n ntg.
Proof. split; intros r H; repeat (destruct H as [<-|H]; [vm_compute; lia|]); destruct H. Qed.
(* the flow from 1 contracts 1 and 2 *)
Example c53_one : option_map (fun r => (show (fst (fst r)), snd (fst r), N.to_nat (snd r))) (nt_rule [1]) =
  Some ([[(1, 10, 0)]; [(0, 10, 0); (3, 1, 0)]; [(3, 10, 1)]; [(1, 1, 1); (2, 10, 0)]], [10; 11; 10; 11], 6, [(0, 0); (2, 1)], 0).
Proof. vm_compute. reflexivity. Qed.

(** the flows from 1 and from 3 both contain 2: together they contract 1, 2 and 3, and the optimum rises from
    1 to 10 *)
Theorem C53_nonterminal_flow_refuted : exists G T rs G' ts' w T', kstate G [] T T /\ (forall r, In r rs -> r < m_n G /\ ~ In r T) /\ NoDup rs /\
  rule_step (fun G ts => nonterminal_flow 100 (fun _ _ q => hd 0 q) (fun _ _ => false) G ts rs (uf_init (m_n G))) (fun l => l) [] T G = Some (G', ts', w) /\
  map fst ts' = T' /\ mtopt (m_n G) (wtm G) T 1 /\ mtopt (m_n G') (wtm G') T' 10 /\ w = 0%N /\ ~ keeps_optimum G T G' T' w.
Proof.
  destruct (nt_rule [1; 3]) as [[[G' ts'] w]|] eqn:E; [|vm_compute in E; discriminate E].
  exists ntg, [0; 4], [1; 3], G', ts', w, (map fst ts').
  assert (M1 : mtopt (m_n ntg) (wtm ntg) [0; 4] 1) by (apply (opt_check_ok _ _ _ _ [0; 0; 0; 1; 1]); vm_compute; reflexivity).
  split; [apply ntg_state|]. split; [|split; [|split; [exact E|]]].
  - intros r [<-|[<-|[]]]; (split; [vm_compute; lia|intros [H|[H|[]]]; discriminate H]).
  - repeat constructor; cbn; intuition discriminate.
  - vm_compute in E. injection E as <- <- <-. cbn [map fst].
    match goal with |- _ /\ _ /\ mtopt ?n ?W ?T _ /\ _ => assert (M2 : mtopt n W T 10) by (apply (opt_check_ok _ _ _ _ [0; 0; 1]); vm_compute; reflexivity) end.
    split; [reflexivity|]. split; [exact M1|]. split; [exact M2|]. split; [reflexivity|]. intro K. destruct (proj1 (K 1%N) M1) as (c' & M3 & Q).
    pose proof (mtopt_unique _ _ _ _ _ M2 M3). lia.
Qed.
Print Assumptions C53_nonterminal_flow_refuted.
