(* Prop_EqNeigh.v - property C62: the equal neighbourhood rule of the kernelization. *)
From Coq Require Import Permutation.
From Verif Require Import SpecRel SpecMulti SpecMutable P_UnionFind P_Cut P_Mutable P_MutableIO P_Multi P_Kernel P_Kernel3 P_MultiCheck P_EqNeigh Prop_Mutable Prop_Kernel.

(** two non-terminals with the same seed have the same number of edges *)
Definition no_collision (hash : nat -> N) (G : mg) (T : list nat) : Prop :=
  forall a b, a < m_n G -> b < m_n G -> ~ In a T -> ~ In b T -> nth a (m_rows G) [] <> [] -> nth b (m_rows G) [] <> [] ->
    en_seed hash (nth a (m_rows G) []) = en_seed hash (nth b (m_rows G) []) -> length (nth a (m_rows G) []) = length (nth b (m_rows G) []).

(** ** C62: for every set of active vertices, degree limit, hash function, order that std::sort gives equal
    targets (parallel edges), and order of the hash sets, the rule reads no list out of range and a round keeps
    "deleted weight plus optimum" - as long as no two seeds collide *)
Theorem C62_equal_neighborhood_partial : forall G maps origs T hash srt active nd ord,
  (forall l, Permutation (ord l) l) -> (forall l, Permutation (srt l) l) -> kstate G maps origs T -> 0 < length T -> no_collision hash G T ->
  exists G' ts' w T', rule_step (fun G ts => equal_neighborhoods hash srt G ts active nd) ord maps origs G = Some (G', ts', w) /\ kstate G' maps origs T' /\
    map fst ts' = filter (fun v => 0 <? length (nth v (m_rows G') [])) T' /\ keeps_optimum G T G' T' w.
Proof.
  intros G maps origs T hash srt active nd ord OP SP KS PT NC.
  destruct (rule_step_ok (fun G ts => equal_neighborhoods hash srt G ts active nd) ord G maps origs T OP KS) as (G' & ts' & w & T' & A); auto.
  - destruct (equal_neighborhoods_ok G (live G T) (ks_valid _ _ _ _ KS) srt SP hash active nd) as (u & ps & E & I & _ & S & EO); [|exists u, ps; auto].
    intros a b Ha Hb Ca Cb E. apply cand_facts in Ca. apply cand_facts in Cb. destruct Ca as [Na Ra], Cb as [Nb Rb]. apply NC; auto.
    + intro H. apply Na, filter_In. split; [auto|]. apply Nat.ltb_lt. destruct (nth a (m_rows G) []); [congruence|cbn; lia].
    + intro H. apply Nb, filter_In. split; [auto|]. apply Nat.ltb_lt. destruct (nth b (m_rows G) []); [congruence|cbn; lia].
  - exists G', ts', w, T'. exact A.
Qed.
Print Assumptions C62_equal_neighborhood_partial.

(** what the rule merges: only pairs of non-terminals with an edge whose weights to all other vertices agree *)
Theorem C62_merges_twins_partial : forall G ts hash srt active nd, (forall l, Permutation (srt l) l) -> mvalid G -> no_collision hash G ts ->
  exists u ps, equal_neighborhoods hash srt G ts active nd = Some u /\ inv (m_n G) ps u /\
    forall a b, In (a, b) ps -> a < m_n G /\ b < m_n G /\ ~ In a ts /\ ~ In b ts /\
      forall x, x < m_n G -> x <> a -> x <> b -> wtm G a x = wtm G b x.
Proof.
  intros G ts hash srt active nd SP MV NC. destruct (equal_neighborhoods_ok G ts MV srt SP hash active nd) as (u & ps & E & I & T & _).
  - intros a b Ha Hb Ca Cb E. apply cand_facts in Ca. apply cand_facts in Cb. destruct Ca as [Na Ra], Cb as [Nb Rb]. apply NC; auto.
  - exists u, ps. split; [exact E|]. split; [exact I|]. intros a b H. exact (T a b H).
Qed.
Print Assumptions C62_merges_twins_partial.

(* a stable sort by target *)
Fixpoint ins_pair (x : nat * N) (l : list (nat * N)) : list (nat * N) :=
  match l with [] => [x] | y :: l' => if fst x <=? fst y then x :: l else y :: ins_pair x l' end.
Definition sort_pairs (l : list (nat * N)) : list (nat * N) := fold_right ins_pair [] l.
Lemma ins_pair_perm x l : Permutation (ins_pair x l) (x :: l).
Proof. induction l as [|y l IH]; [reflexivity|]. cbn [ins_pair]. destruct (fst x <=? fst y); [reflexivity|]. rewrite IH. apply perm_swap. Qed.
Lemma sort_pairs_perm l : Permutation (sort_pairs l) l.
Proof. induction l as [|x l IH]; [reflexivity|]. cbn [sort_pairs fold_right]. rewrite ins_pair_perm. constructor. exact IH. Qed.

(* 3, 4: the same neighbours 0, 1, 7; 5, 6: the same neighbours 1, 2 and adjacent; 7: alone *)
Definition eq_ops : list mop := [NewOrder 0 3 4; NewOrder 1 3 2; NewOrder 3 7 5; NewOrder 7 4 5; NewOrder 4 1 2; NewOrder 4 0 4;
  NewOrder 5 1 3; NewOrder 2 5 6; NewOrder 5 6 9; NewOrder 6 2 6; NewOrder 1 6 3; NewOrder 7 2 1].
Definition eqg : mg := mg_of 8 eq_ops.
Definition id_hash (v : nat) : N := N.of_nat v.
(* a check of no_collision *)
Definition no_coll_b (hash : nat -> N) (G : mg) : bool :=
  forallb (fun a => forallb (fun b => negb (en_seed hash (nth a (m_rows G) []) =? en_seed hash (nth b (m_rows G) []))%N ||
    (length (nth a (m_rows G) []) =? length (nth b (m_rows G) []))) (seq 0 (m_n G))) (seq 0 (m_n G)).
Lemma no_coll_b_ok hash G T : no_coll_b hash G = true -> no_collision hash G T.
Proof.
  intros H a b Ha Hb _ _ _ _ E. unfold no_coll_b in H. rewrite forallb_forall in H. specialize (H a ltac:(apply in_seq; lia)). rewrite forallb_forall in H.
  specialize (H b ltac:(apply in_seq; lia)). rewrite E, N.eqb_refl in H. cbn [negb orb] in H. apply Nat.eqb_eq. exact H.
Qed.
Example c62_hyps : kstate eqg [] [0; 1; 2] [0; 1; 2] /\ 0 < length [0; 1; 2] /\ no_collision id_hash eqg [0; 1; 2] /\ forall l, Permutation (sort_pairs l) l.
Proof.
  split; [destruct (mg_of_valid 8 eq_ops eq_refl) as [A [B C]]; apply kstate_of; [exact A|exact C|reflexivity]|]. split; [cbn; lia|].
  split; [apply no_coll_b_ok; vm_compute; reflexivity|apply sort_pairs_perm].
Qed.
Example c62_run : option_map (fun r => (show (fst (fst r)), snd (fst r), N.to_nat (snd r)))
    (rule_step (fun G ts => equal_neighborhoods id_hash sort_pairs G ts (fun _ => true) 50) (fun l => l) [] [0; 1; 2] eqg) =
  Some ([[(3, 8, 0)]; [(3, 4, 1); (5, 6, 0)]; [(5, 12, 1); (4, 1, 1)]; [(0, 8, 0); (1, 4, 0); (4, 10, 0)]; [(3, 10, 2); (2, 1, 1)]; [(1, 6, 1); (2, 12, 0)]],
     [8; 10; 13; 22; 11; 18], 12, [(0, 0); (1, 1); (2, 2)], 0).
Proof. vm_compute. reflexivity. Qed.

(** ** C62 without the hypothesis: std::hash may send every id to the number that keeps all seeds zero; then a vertex whose
    edges are the first edges of another one is merged with it (optimum 7, after the merge 10), and with the roles changed the list of the other one is read behind its end *)
Definition flat_hash (v : nat) : N := (2 ^ 64 - 2654435769)%N.
Definition pre_ops : list mop := [NewOrder 0 3 3; NewOrder 1 3 2; NewOrder 2 3 10; NewOrder 0 4 3; NewOrder 1 4 2].
Definition post_ops : list mop := [NewOrder 0 4 3; NewOrder 1 4 2; NewOrder 2 4 10; NewOrder 0 3 3; NewOrder 1 3 2].
Theorem C62_hash_refuted :
  (exists G T hash G' ts' w T', kstate G [] T T /\
    rule_step (fun G ts => equal_neighborhoods hash sort_pairs G ts (fun _ => true) 50) (fun l => l) [] T G = Some (G', ts', w) /\ at_positions G' [] T T' /\
    mtopt (m_n G) (wtm G) T 7 /\ mtopt (m_n G') (wtm G') T' 10 /\ w = 0%N /\ ~ keeps_optimum G T G' T' w) /\
  (exists G T hash, kstate G [] T T /\ equal_neighborhoods hash sort_pairs G T (fun _ => true) 50 = None).
Proof.
  split.
  - destruct (rule_step (fun G ts => equal_neighborhoods flat_hash sort_pairs G ts (fun _ => true) 50) (fun l => l) [] [0; 1; 2] (mg_of 5 pre_ops)) as [[[G' ts'] w]|] eqn:E; [|vm_compute in E; discriminate].
    exists (mg_of 5 pre_ops), [0; 1; 2], flat_hash, G', ts', w, [0; 1; 2]. destruct (mg_of_valid 5 pre_ops eq_refl) as [A [B C]].
    split; [apply kstate_of; [exact A|exact C|reflexivity]|]. split; [exact E|].
    vm_compute in E. injection E as <- <- <-.
    assert (M1 : mtopt (m_n (mg_of 5 pre_ops)) (wtm (mg_of 5 pre_ops)) [0; 1; 2] 7) by (apply (opt_check_ok _ _ _ _ [0; 1; 2; 2; 0]); reflexivity).
    match goal with |- _ /\ _ /\ mtopt ?n ?W ?T _ /\ _ => assert (M2 : mtopt n W T 10) by (apply (opt_check_ok _ _ _ _ [0; 1; 2; 2]); reflexivity) end.
    split. { split; [reflexivity|]. intros [|[|[|i]]] o Ho; [injection Ho as <-; eexists; split; reflexivity..|destruct i; discriminate Ho]. }
    do 3 (split; [auto; reflexivity|]). intro K. apply (K 7%N) in M1. destruct M1 as (c' & M & Q). pose proof (mtopt_unique _ _ _ _ _ M M2). lia.
  - exists (mg_of 5 post_ops), [0; 1; 2], flat_hash. destruct (mg_of_valid 5 post_ops eq_refl) as [A [B C]].
    split; [apply kstate_of; [exact A|exact C|reflexivity]|vm_compute; reflexivity].
Qed.
Print Assumptions C62_hash_refuted.
