(* Prop_Clique.v - properties C80 and C81: maximal cliques and the contraction of semi-isolated cliques. *)
From Coq Require Import Permutation Sorted.
From Verif Require Import SpecRel SpecMulti SpecMutable P_UnionFind P_Cut P_Mutable P_MutableIO P_Multi P_Kernel P_Kernel3 P_MultiCheck P_LocalSearch P_ContractStd2 P_Clique2 P_Clique3 Prop_Mutable Prop_Kernel Prop_EqNeigh.

(** two vertices with an edge *)
Definition adjacent (G : mg) (x y : nat) : Prop := exists w r, In (y, w, r) (nth x (m_rows G) []).
(** c: different vertices, every two with an edge *)
Definition is_clique (G : mg) (c : list nat) : Prop := NoDup c /\ (forall x, In x c -> x < m_n G) /\ forall x y, In x c -> In y c -> x <> y -> adjacent G x y.
(** ... that cannot be extended *)
Definition is_maximal (G : mg) (c : list nat) : Prop := is_clique G c /\ c <> [] /\ ~ exists v, v < m_n G /\ ~ In v c /\ forall x, In x c -> adjacent G v x.
(** no two lists at different places have the same members *)
Definition pairwise_different (cs : list (list nat)) : Prop :=
  forall i j c d, i < j -> nth_error cs i = Some c -> nth_error cs j = Some d -> ~ forall x, In x c <-> In x d.
(** std::sort by the first component *)
Definition sorts (srt : list (nat * N) -> list (nat * N)) : Prop := (forall l, Permutation (srt l) l) /\ forall l, StronglySorted le (map fst (srt l)).

Lemma distinct_places cs : distinct cs -> pairwise_different cs.
Proof.
  induction 1 as [|cs c D IH N]; intros i j a b L Ea Eb Q; [destruct i; discriminate Ea|]. assert (Lj : j < length (cs ++ [c])) by (apply nth_error_Some; rewrite Eb; discriminate). rewrite app_length in Lj. cbn [length] in Lj.
  destruct (Nat.eq_dec j (length cs)) as [->|Nj].
  - rewrite nth_error_app2, Nat.sub_diag in Eb by lia. injection Eb as <-. rewrite nth_error_app1 in Ea by lia. destruct (N a (nth_error_In _ _ Ea)) as (x & [[A B]|[A B]]); [apply B, Q|apply B, Q]; auto.
  - rewrite nth_error_app1 in Ea, Eb by lia. apply (IH i j a b); auto.
Qed.

(** ** C80: findCliques reads no list out of range; what it returns are maximal cliques, each once *)
Theorem C80_find_cliques_partial : forall G srt, mvalid G -> no_parallel (m_rows G) -> sorts srt ->
  exists cs, find_cliques srt G = Some cs /\ (forall c, In c cs -> is_maximal G c) /\ pairwise_different cs.
Proof.
  intros G srt MV NP [SP SS]. destruct (find_cliques_ok G (proj1 MV) NP srt SP SS) as (cs & E & M & D). exists cs. split; [exact E|]. split; [|apply distinct_places; auto].
  intros c I. destruct (M c I) as (A & B & C). split; [exact A|]. split; [exact B|]. intros (v & _ & _ & H). apply (C v). exact H.
Qed.
Print Assumptions C80_find_cliques_partial.

(** ** C81: every list of cliques is contracted safely - "deleted weight plus optimum" stays *)
Theorem C81_semi_isolated : forall G maps origs T cs ord,
  (forall l, Permutation (ord l) l) -> kstate G maps origs T -> 0 < length T -> no_zero (m_rows G) -> (forall c, In c cs -> is_clique G c) ->
  exists G' ts' w T', rule_step (contract_cliques cs) ord maps origs G = Some (G', ts', w) /\ kstate G' maps origs T' /\
    map fst ts' = filter (fun v => 0 <? length (nth v (m_rows G') [])) T' /\ keeps_optimum G T G' T' w.
Proof.
  intros G maps origs T cs ord OP KS PT NZ HC. destruct (rule_step_ok (contract_cliques cs) ord G maps origs T OP KS) as (G' & ts' & w & T' & A); auto.
  - apply (contract_cliques_ok G (live G T) (ks_valid _ _ _ _ KS) NZ cs HC).
  - exists G', ts', w, T'. exact A.
Qed.
Print Assumptions C81_semi_isolated.

(** a round with the cliques that findCliques returns *)
Definition clique_rule (srt : list (nat * N) -> list (nat * N)) (G : mg) (ts : list nat) : option M_UnionFind.uf :=
  match find_cliques srt G with Some cs => contract_cliques cs G ts | None => None end.
Theorem C81_clique_round : forall G maps origs T srt ord,
  (forall l, Permutation (ord l) l) -> sorts srt -> kstate G maps origs T -> 0 < length T -> no_parallel (m_rows G) -> no_zero (m_rows G) ->
  exists G' ts' w T', rule_step (clique_rule srt) ord maps origs G = Some (G', ts', w) /\ kstate G' maps origs T' /\
    map fst ts' = filter (fun v => 0 <? length (nth v (m_rows G') [])) T' /\ keeps_optimum G T G' T' w.
Proof.
  intros G maps origs T srt ord OP SO KS PT NP NZ. destruct (C80_find_cliques_partial G srt (ks_valid _ _ _ _ KS) NP SO) as (cs & E & M & _).
  destruct (rule_step_ok (clique_rule srt) ord G maps origs T OP KS) as (G' & ts' & w & T' & A); auto.
  - unfold clique_rule. rewrite E. apply (contract_cliques_ok G (live G T) (ks_valid _ _ _ _ KS) NZ cs). intros c I. apply (M c I).
  - exists G', ts', w, T'. exact A.
Qed.
Print Assumptions C81_clique_round.

(* a sort *)
Lemma ins_pair_sorted x l : StronglySorted le (map fst l) -> StronglySorted le (map fst (ins_pair x l)).
Proof.
  induction l as [|y l IH]; intro S; cbn [ins_pair]; [repeat constructor|]. cbn [map] in S. inversion S as [|? ? S' F]; subst. rewrite Forall_forall in F. destruct (Nat.leb_spec (fst x) (fst y)); cbn [map].
  - constructor; [exact S|]. apply Forall_forall. intros k [<-|I]; [auto|]. specialize (F k I). lia.
  - constructor; [auto|]. apply Forall_forall. intros k I. apply (Permutation_in _ (Permutation_map fst (ins_pair_perm x l))) in I. destruct I as [<-|I]; [lia|auto].
Qed.
Lemma sort_pairs_sorts : sorts sort_pairs.
Proof. split; [apply sort_pairs_perm|]. induction l as [|x l IH]; [constructor|]. cbn [sort_pairs fold_right]. apply ins_pair_sorted. exact IH. Qed.

(* terminals 0, 1, 2; the cliques 3 4 5 and 4 5 6 share an edge *)
Definition cl_ops : list mop := [NewOrder 3 4 4; NewOrder 3 5 4; NewOrder 4 5 4; NewOrder 4 6 4; NewOrder 5 6 4; NewOrder 0 3 1; NewOrder 1 6 1; NewOrder 2 7 9; NewOrder 7 3 1; NewOrder 5 2 2].
Definition clg : mg := mg_of 8 cl_ops.
Lemma rows_np G : forallb (fun row => (fix nd l := match l with [] => true | x :: l' => negb (existsb (Nat.eqb x) l') && nd l' end) (map (fun h : half => fst (fst h)) row)) (m_rows G) = true -> no_parallel (m_rows G).
Proof.
  intros H v. destruct (Nat.lt_ge_cases v (length (m_rows G))) as [L|L]; [|rewrite nth_overflow by auto; constructor].
  rewrite forallb_forall in H. specialize (H _ (nth_In _ [] L)). revert H. generalize (map (fun h : half => fst (fst h)) (nth v (m_rows G) [])). induction l as [|x l IH]; intro H; [constructor|].
  apply andb_true_iff in H as [A B]. constructor; [|auto]. intro I. apply negb_true_iff in A. assert (existsb (Nat.eqb x) l = true); [|congruence]. apply existsb_exists. exists x. split; [auto|apply Nat.eqb_refl].
Qed.
Lemma rows_nz G : forallb (forallb (fun h : half => negb (snd (fst h) =? 0)%N)) (m_rows G) = true -> no_zero (m_rows G).
Proof.
  intros H v t w r I. destruct (Nat.lt_ge_cases v (length (m_rows G))) as [L|L]; [|rewrite nth_overflow in I by auto; destruct I].
  rewrite forallb_forall in H. specialize (H _ (nth_In _ [] L)). rewrite forallb_forall in H. specialize (H _ I). cbn in H. intros ->. discriminate H.
Qed.
Example c80_hyps : mvalid clg /\ no_parallel (m_rows clg) /\ no_zero (m_rows clg) /\ sorts sort_pairs /\ kstate clg [] [0; 1; 2] [0; 1; 2].
Proof.
  destruct (mg_of_valid 8 cl_ops eq_refl) as [A [B C]]. split; [exact A|]. split; [apply rows_np; vm_compute; reflexivity|]. split; [apply rows_nz; vm_compute; reflexivity|]. split; [apply sort_pairs_sorts|].
  apply kstate_of; [exact A|exact C|reflexivity].
Qed.
Example c80_run : find_cliques sort_pairs clg = Some [[0; 3]; [1; 6]; [2; 5]; [2; 7]; [3; 4; 5]; [4; 5; 6]].
Proof. vm_compute. reflexivity. Qed.
Example c81_run : option_map (fun r => (show (fst (fst r)), snd (fst r), N.to_nat (snd r))) (rule_step (clique_rule sort_pairs) (fun l => l) [] [0; 1; 2] clg) =
  Some ([[(3, 1, 0)]; [(3, 1, 3)]; [(4, 9, 0); (3, 2, 2)]; [(0, 1, 0); (4, 1, 1); (2, 2, 1); (1, 1, 0)]; [(2, 9, 0); (3, 1, 1)]], [1; 1; 11; 5; 10], 10, [(0, 0); (1, 1); (2, 2)], 0).
Proof. vm_compute. reflexivity. Qed.

(** ** C80, the other direction: not every maximal clique is returned, not even each that contractSemiIsolatedCliques would contract:
    the search at a vertex ends at the first neighbour that gives no clique *)
Definition ms_ops : list mop := [NewOrder 0 1 1; NewOrder 0 2 1; NewOrder 1 2 1; NewOrder 0 3 5; NewOrder 0 4 5; NewOrder 3 4 5; NewOrder 1 5 100].
Definition adj_b (G : mg) (x y : nat) : bool := existsb (fun h : half => fst (fst h) =? y) (nth x (m_rows G) []).
Lemma adj_b_ok G x y : adj_b G x y = true <-> adjacent G x y.
Proof.
  unfold adj_b. rewrite existsb_exists. split; [intros ([[t w] r] & I & Q); apply Nat.eqb_eq in Q; cbn in Q; subst t; exists w, r; auto|intros (w & r & I); exists (y, w, r); split; [auto|apply Nat.eqb_refl]].
Qed.
Theorem C80_complete_refuted : exists G srt cs c u, mvalid G /\ no_parallel (m_rows G) /\ no_zero (m_rows G) /\ sorts srt /\ find_cliques srt G = Some cs /\ is_maximal G c /\
  (forall d, In d cs -> ~ forall x, In x d <-> In x c) /\ ci_clique G [1; 2; 5] (uf_init (m_n G)) c = Some u /\ cnt u < m_n G.
Proof.
  exists (mg_of 6 ms_ops), sort_pairs, [[1; 5]], [0; 3; 4], (mk_uf [3; 1; 2; 3; 3; 5] [0; 0; 0; 1; 0; 0] 4). destruct (mg_of_valid 6 ms_ops eq_refl) as [A _].
  split; [exact A|]. split; [apply rows_np; vm_compute; reflexivity|]. split; [apply rows_nz; vm_compute; reflexivity|]. split; [apply sort_pairs_sorts|]. split; [vm_compute; reflexivity|]. split; [|split; [|split; [vm_compute; reflexivity|vm_compute; lia]]].
  - split; [|split; [discriminate|]].
    + split; [repeat constructor; cbn; intuition discriminate|]. split; [intros x [<-|[<-|[<-|[]]]]; vm_compute; lia|].
      intros x y [<-|[<-|[<-|[]]]] [<-|[<-|[<-|[]]]] Q; try (exfalso; apply Q; reflexivity); apply adj_b_ok; vm_compute; reflexivity.
    + intros (v & L & Nv & H). pose proof (proj2 (adj_b_ok _ _ _) (H 3 ltac:(cbn; auto))) as I. clear H. change (m_n (mg_of 6 ms_ops)) with 6 in L.
      assert (v = 0 \/ v = 1 \/ v = 2 \/ v = 3 \/ v = 4 \/ v = 5) as [->|[->|[->|[->|[->| ->]]]]] by lia; try (apply Nv; cbn; auto; fail); vm_compute in I; discriminate I.
  - intros d [<-|[]] Q. specialize (Q 0). destruct (proj2 Q (or_introl eq_refl)) as [Z|[Z|[]]]; discriminate Z.
Qed.
Print Assumptions C80_complete_refuted.
