(* P_Recursive6.v - proofs about internalRecursiveCactus, part 6: the branch that merges the cactus of the s-t cuts with the cactuses of
   the components. *)
From Coq Require Import Relations.
From Verif Require Import SpecCut SpecDyn SpecFlow SpecMutable LibZ M_Mutable P_Mutable P_Mutable7 P_Cut P_LocalSearch P_LocalSearch2 P_AllMincuts P_MutableIO M_PushRelabel P_Flow6 M_LimFlow Prop_Flow Prop_LimFlow M_Scc P_Scc Prop_StCactus P_FlowChain M_Rebuild P_Rebuild Prop_Rebuild P_IsoFlow2 P_Recursive M_StCactus M_Merge M_Branch M_Recursive P_StCactus9 P_ContractStd P_ContractStd2 P_ContractSet2 P_Merge3 P_Merge6 P_Recursive2 P_Recursive3 P_Recursive4 P_Recursive5.

Lemma filt_one (p : nat -> bool) : forall l w, w < length l -> p (nth w l 0) = false -> length (filter p l) + 1 <= length l.
Proof.
  induction l as [|a l IH]; intros [|w] L E; cbn [length nth filter] in *; try lia.
  - rewrite E. assert (H : forall m, length (filter p m) <= length m) by (induction m as [|b m IM]; cbn [filter length]; [lia|destruct (p b); cbn [length]; lia]). specialize (H l). lia.
  - specialize (IH w ltac:(lia) E). destruct (p a); cbn [length]; lia.
Qed.
Lemma filt_two (p : nat -> bool) : forall l u w, u < w -> w < length l -> p (nth u l 0) = false -> p (nth w l 0) = false -> length (filter p l) + 2 <= length l.
Proof.
  induction l as [|a l IH]; intros [|u] [|w] L1 L2 E1 E2; cbn [length nth filter] in *; try lia.
  - rewrite E1. pose proof (filt_one p l w ltac:(lia) E2). lia.
  - specialize (IH u w ltac:(lia) ltac:(lia) E1 E2). destruct (p a); cbn [length]; lia.
Qed.

(** the sizes of the blocks *)
Lemma sizes_ok R F fpid E o : valid_rows R -> stores fpid E R F -> strong_components scc_new (res_rows (Some fpid) E) = Some o ->
  forall q, nth q (s_bs o) 0 = length (filter (Nat.eqb q) (comp_vector o)).
Proof.
  intros V ST Eo q. set (rows := res_rows (Some fpid) E) in *. assert (Lr : length rows = length R) by (unfold rows, res_rows; rewrite map_length; apply ST).
  assert (Bd : forall u v, In (Some v) (nth u rows []) -> v < length rows).
  { intros u v I. rewrite Lr. apply (st_redge R F fpid E ST) in I. destruct I as (e & w & r & S & _). destruct (V u e v w r S) as [B _]. auto. }
  destruct (scc_sizes rows Bd scc_new o eq_refl eq_refl eq_refl eq_refl Eo) as [_ BC]. rewrite BC.
  destruct (scc_ok rows Bd scc_new eq_refl eq_refl eq_refl) as (o' & Eo' & I & _ & _ & _ & Fin). assert (o' = o) by congruence. subst o'.
  assert (Lc : length (s_comp o) = length rows) by apply (i_lc _ _ I).
  assert (A : forall x, In x (s_comp o) -> x <> None).
  { intros x Ix. apply (In_nth _ _ None) in Ix as (u & Hu & <-). apply (Fin u ltac:(lia)). }
  unfold comp_vector. clear - A. induction (s_comp o) as [|x l IH]; [reflexivity|]. cbn [filter map].
  assert (X : has q x = (q =? match x with Some c => c | None => 0 end)). { destruct x as [y|]; [cbn [has]; apply Nat.eqb_sym|]. exfalso. apply (A None); [left; auto|auto]. }
  rewrite X. specialize (IH (fun y Iy => A y (or_intror Iy))). destruct (q =? _); cbn [length]; congruence.
Qed.

(** the cactus of the s-t cuts is the start *)
Lemma st_rep n c G f M g : good n c G -> st_cactus G f c M g -> rep n c (cuts_of n c G (merged G f [])) M.
Proof.
  intros GD [V La O Rg Bl Pl Mb Ap Ed (L1 & L2 & L3 & L4) Lw So Co NP]. pose proof (gd_orig _ _ _ GD) as OG. pose proof (gd_range _ _ _ GD) as RG. rewrite OG in *.
  assert (Po : forall x, x < n -> nth x (m_pos M) 0 = g (nth x (m_pos G) 0)) by (intros x Hx; apply Pl; auto).
  constructor; auto.
  - intros x Hx. rewrite Po by auto. apply Rg, RG. auto.
  - split; [lia|]. intros p x Hp. rewrite Mb, L4. split.
    + intros (A & B & C). split; [auto|]. rewrite Po by auto. exact C.
    + intros (A & B). split; [auto|]. split; [apply RG; auto|]. rewrite <- Po by auto. exact B.
  - split; [auto|]. split; [auto|]. split; [auto|]. exact Ed.
  - intros S PS ES. destruct (So S PS ES) as [P1 E1]. exists (fun u => S (g u)). split; [auto|]. split; [exact E1|]. split.
    + left. intros u w Hu Hw Q. f_equal. apply Bl; auto.
    + intros x Hx. rewrite Po by auto. reflexivity.
  - intros Y (S & PS & ES & [Wh|(cc & [] & _)] & A). destruct (Co S PS Wh ES) as (S' & E' & A'). exists S'. split; [exact E'|]. intros x Hx. rewrite Po, A', A by (auto; apply RG; auto). reflexivity.
Qed.

Section Step.
Context (n : nat) (c : N) (Pc : (0 < c)%N) (G : mg) (GD : good n c G) (ord : list nat -> list nat) (Or : forall l, Permutation (ord l) l) (bfs : nat).
Context (rec : nat -> mg -> option (mg * nat)).
Context (Rec : forall pid H, good n c H -> m_n H < m_n G -> exists N pid', rec pid H = Some (N, pid') /\ rep n c (mincuts_of n c H) N).

Lemma base_ok v (f : nat -> bool) : (exists u, u < m_n G /\ f (nth u v 0) = true) -> exists x, cp_base G v f = Some x /\ x < n /\ f (nth (nth x (m_pos G) 0) v 0) = true.
Proof.
  intros (u & Hu & Fu). unfold cp_base. destruct (find _ (seq 0 (m_n G))) as [p|] eqn:E.
  - apply find_some in E as [Ip E]. apply in_seq in Ip. apply andb_true_iff in E as [E _]. assert (Hp : p < m_n G) by lia. pose proof (gd_full _ _ _ GD p Hp) as NE.
    destruct (nth p (m_cont G) []) as [|x l] eqn:Q; [congruence|]. exists x. split; [reflexivity|].
    assert (I : In x (nth p (m_cont G) [])) by (rewrite Q; left; auto). apply (proj2 (gd_groups _ _ _ GD) p x Hp) in I. rewrite (gd_lp _ _ _ GD) in I. destruct I as [I ->]. auto.
  - exfalso. pose proof (find_none _ _ E u) as Q. cbn beta in Q. rewrite Fu in Q. unfold m_empty in Q. pose proof (gd_full _ _ _ GD u Hu). destruct (nth u (m_cont G) []); [congruence|].
    cbn in Q. assert (true = false); [|congruence]. apply Q. apply in_seq. lia.
Qed.

Section Blocks.
Context (v bs : list nat) (Lv : length v = m_n G) (Bs : forall q, nth q bs 0 = length (filter (Nat.eqb q) v)).
Let f (u : nat) : nat := nth u v 0.
Context (k : nat) (CL : clustering (m_n G) f k) (K2 : 2 <= k).
Context (Pre : forall i, i < k - 1 -> gcut G (fun u => f u <=? i) = c).
Context (Two : forall cc, cc < k -> exists u w, u < m_n G /\ w < m_n G /\ u <> w /\ f u <> cc /\ f w <> cc).

Lemma comp_graph cc : cc < k -> exists H h, (if 2 * nth cc bs 0 <=? m_n G then cp_small G v cc (nth cc bs 0) else cp_big ord G v cc) = Some H /\ part n c G f cc H h.
Proof.
  intro Hcc. destruct (Two cc Hcc) as (u & w & Hu & Hw & Nuw & Fu & Fw). destruct (2 * nth cc bs 0 <=? m_n G).
  - destruct (small_ok n c G GD v Lv cc (nth cc bs 0) (Bs cc)) as (H & EH & PH).
    + rewrite (Bs cc), <- Lv. assert (X : length (filter (Nat.eqb cc) v) + 2 <= length v); [|lia].
      destruct (Nat.lt_ge_cases u w); [apply (filt_two _ v u w)|apply (filt_two _ v w u)]; try lia; apply Nat.eqb_neq; unfold f in *; auto.
    + exists u. auto.
    + eauto.
  - destruct (big_ok n c G GD ord Or v cc Lv) as (H & h & EH & PH); [exists u, w; auto 10|]. eauto.
Qed.

Lemma component_ok l cc M pid : cc < k -> ~ In cc l -> rep n c (cuts_of n c G (merged G f l)) M ->
  exists M' pid', merge_component c ord bfs rec G v bs (M, pid) cc = Some (M', pid') /\ rep n c (cuts_of n c G (merged G f (cc :: l))) M'.
Proof.
  intros Hcc Nl RM. unfold merge_component. destruct (comp_graph cc Hcc) as (H & h & EH & PH). rewrite EH. cbn [fst snd].
  destruct (Rec pid H (pt_good _ _ _ _ _ _ _ PH) (pt_less _ _ _ _ _ _ _ PH)) as (NN & pid' & ER & RN). rewrite ER.
  assert (RN' : rep n c (cuts_of n c G (out_of (m_n G) f cc)) NN).
  { eapply rep_iff; [|intro Y; apply (part_cuts n c G f cc H h GD PH)|exact RN]. apply mincuts_family. apply PH. }
  destruct (base_ok v (Nat.eqb cc)) as (x & Ex & Hx & Fx). { destruct (proj2 CL cc Hcc) as (u & Hu & Eu). exists u. split; [auto|]. apply Nat.eqb_eq. auto. }
  destruct (base_ok v (fun x => negb (x =? cc))) as (y & Ey & Hy & Fy). { destruct (Two cc Hcc) as (u & _ & Hu & _ & _ & Fu & _). exists u. split; [auto|]. apply negb_true_iff, Nat.eqb_neq. auto. }
  apply Nat.eqb_eq in Fx. apply negb_true_iff, Nat.eqb_neq in Fy.
  rewrite Ex, Ey. rewrite (nth_error_nth' (m_pos M) 0) by (rewrite (rp_lp _ _ _ _ RM); auto). rewrite (nth_error_nth' (m_pos NN) 0) by (rewrite (rp_lp _ _ _ _ RN); auto).
  destruct (merge_one n c Pc G GD f k CL K2 Pre bfs l cc M NN x y Nl RM RN' Hx Hy) as (M' & EM & RM'); [unfold f; auto|unfold f; auto|].
  rewrite EM. cbn [option_map]. eauto.
Qed.

Lemma components_fold : forall cs l M pid, (forall cc, In cc cs -> cc < k) -> NoDup cs -> (forall cc, In cc cs -> ~ In cc l) -> rep n c (cuts_of n c G (merged G f l)) M ->
  exists M' pid', fold_opt (merge_component c ord bfs rec G v bs) cs (M, pid) = Some (M', pid') /\ rep n c (cuts_of n c G (merged G f (rev cs ++ l))) M'.
Proof.
  induction cs as [|cc cs IH]; intros l M pid Hk ND Nl RM; cbn [fold_opt rev app]; [eauto|].
  inversion ND as [|? ? N0 ND']; subst. destruct (component_ok l cc M pid) as (M1 & p1 & E1 & R1); [apply Hk; left; auto|apply Nl; left; auto|auto|]. rewrite E1.
  destruct (IH (cc :: l) M1 p1) as (M2 & p2 & E2 & R2); auto.
  - intros d Id. apply Hk. right. auto.
  - intros d Id [<-|Q]; [contradiction|]. apply (Nl d); [right; auto|auto].
  - exists M2, p2. split; [exact E2|]. rewrite <- app_assoc. exact R2.
Qed.

(** after the last component all minimum cuts are there *)
Lemma all_merged l s t : s < m_n G -> t < m_n G -> f s = 0 -> f t = k - 1 -> (forall S, gcut G S = c -> S s <> S t -> whole (m_n G) f S) -> (forall cc, cc < k -> In cc l) ->
  forall Y, cuts_of n c G (merged G f l) Y <-> mincuts_of n c G Y.
Proof.
  intros Hs Ht Fs Ft St Al Y. split.
  - intros (S & P & E & _ & A). exists S. auto.
  - intros (S & P & E & A). exists S. split; [auto|]. split; [auto|]. split; [|auto].
    destruct (split_one (m_n G) (wt (adj (m_rows G))) (valid_symm _ (proj1 (gd_valid _ _ _ GD))) c (gd_low _ _ _ GD) f k s t Hs Ht Pre (proj1 CL) Fs Ft St S E) as [W|(i & b & Hi & B)]; [left; auto|].
    right. exists i. split; [auto|]. exists b. auto.
Qed.
End Blocks.
End Step.
