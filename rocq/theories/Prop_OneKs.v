(* Prop_OneKs.v - C89: one_ks contracts along edges of the graph down to the wanted number of vertices. *)
From Verif Require Import SpecRel M_UnionFind P_UnionFind SpecCut P_Cut M_OneKs P_Contract P_Heur P_OneKs.

(** the sets of [f] are the connected components that the edges [ps] of [G] make *)
Definition blocks_of_edges (G : graph) (ps : list (nat * nat)) (f : nat -> nat) : Prop :=
  (forall a b, In (a, b) ps -> exists w, In (b, w) (nth a G [])) /\
  forall x y, x < length G -> y < length G -> (f x = f y <-> conn ps x y).

(** C89: whatever numbers are drawn, a finished run gives a contraction of the graph along some of its edges with exactly
    n - min (red, n - 2) vertices; its cuts are cuts of the graph with the same weight, so its minimum cut is not smaller *)
Theorem C89_one_ks ord red draws G H m : perm_ord ord -> undirected G -> 2 <= length G -> one_ks ord red draws G = Some (H, m) ->
  length H = length G - Nat.min red (length G - 2) /\ undirected H /\
  (exists ps, blocks_of_edges G ps (fun v => nth v m 0)) /\
  clustering (length G) (fun v => nth v m 0) (length H) /\
  contraction_of (length G) (wt G) (fun v => nth v m 0) (length H) (wt H) /\
  (forall S, cutw (length H) (wt H) S = cutw (length G) (wt G) (fun v => S (nth v m 0))) /\
  (forall c c', mincut_of G c -> mincut_of H c' -> (c <= c')%N).
Proof.
  intros Po U Ln E. unfold one_ks in E. destruct (wks_sample _ _ _ _) as [u|] eqn:Es; [|discriminate].
  destruct (wks_sample_ok G U draws (n_reduce red (length G)) (uf_init (length G)) [] u (inv_init _)) as (ps & I & W & C); [intros p []|exact Es|unfold n_reduce; cbn; lia|].
  destruct (from_uf_ok ord G ps u Po U I) as (H' & m' & Ef & Lm & LH & Cn & Cl & Ct & UH & _).
  rewrite Ef in E. injection E as -> ->.
  assert (Cut : forall S, cutw (length H) (wt H) S = cutw (length G) (wt G) (fun v => S (nth v m 0))).
  { intro S. apply (contraction_cut (length G) (wt G) (fun v => nth v m 0)); [apply Cl|auto]. }
  split; [rewrite LH, C; reflexivity|]. split; [auto|]. split.
  { exists ps. split; [intros a b Hab; exact (W (a, b) Hab)|auto]. }
  split; [auto|]. split; [auto|]. split; [auto|].
  intros c c' [_ Mn] [[S [[[p [Hp Sp]] [q [Hq Sq]]] <-]] _]. rewrite Cut. apply Mn.
  destruct (proj2 Cl p Hp) as (x & Hx & <-). destruct (proj2 Cl q Hq) as (y & Hy & <-).
  split; [exists x; auto|exists y; auto].
Qed.
Print Assumptions C89_one_ks.

(** C89, the draw: the number d leads to entry e of the edge list exactly if d mod total lies above the weight of the entries
    before it (or there are none) and not above that weight with its own; with a positive total there always is such an entry *)
Theorem C89_draw es d : sumN snd es <> 0%N ->
  (exists e, draw_edge es d = Some e) /\
  forall e, draw_edge es d = Some e <->
    exists before after, es = before ++ e :: after /\ (before = [] \/ (sumN snd before < d mod sumN snd es)%N) /\
      (d mod sumN snd es <= sumN snd before + snd e)%N.
Proof.
  intro Z. assert (Q : forall e, draw_edge es d = Some e <->
    exists before after, es = before ++ e :: after /\ (before = [] \/ (sumN snd before < d mod sumN snd es)%N) /\
      (d mod sumN snd es <= sumN snd before + snd e)%N).
  { intro e. rewrite (draw_edge_iff es d e Z). unfold hits. setoid_rewrite N.add_0_l. reflexivity. }
  split; [|exact Q]. pose proof (N.mod_lt d _ Z) as Lt.
  destruct (lb_split es 0%N (d mod sumN snd es)) as (l1 & e & l2 & E & Hh); [intros ->; cbn in Z; auto|lia|].
  exists e. apply (draw_edge_iff es d e Z). eauto.
Qed.
Print Assumptions C89_draw.

(** C89, progress: on a connected graph whatever has been drawn so far can be continued to a finished run *)
Theorem C89_can_finish ord red G pre : perm_ord ord -> undirected G -> 2 <= length G ->
  (forall S, proper (length G) S -> cutw (length G) (wt G) S <> 0%N) ->
  exists more H m, one_ks ord red (pre ++ more) G = Some (H, m).
Proof.
  intros Po U Ln Con. destruct (wks_sample_go_on G U Con pre (n_reduce red (length G)) (uf_init (length G)) [] (inv_init _)) as (more & u & E).
  { unfold n_reduce. cbn. lia. }
  destruct (wks_sample_ok G U (pre ++ more) (n_reduce red (length G)) (uf_init (length G)) [] u (inv_init _)) as (ps & I & W & C); [intros p []|exact E|unfold n_reduce; cbn; lia|].
  destruct (from_uf_ok ord G ps u Po U I) as (H & m & Ef & _). exists more, H, m. unfold one_ks. rewrite E. exact Ef.
Qed.
Print Assumptions C89_can_finish.

(** a cycle of five vertices, contracted to two *)
Definition c89_cycle : graph := gr [[(1,3);(4,1)];[(0,3);(2,2)];[(1,2);(3,5)];[(2,5);(4,1)];[(3,1);(0,1)]].
Example C89_case : undirected c89_cycle /\ 2 <= length c89_cycle /\ sumN snd (flat_wedges c89_cycle) = 24%N /\
  option_map (fun r => (length (fst r), snd r)) (one_ks (fun _ l => l) 4 [0; 2; 11; 12]%N c89_cycle) = Some (2, [0; 0; 0; 0; 1]) /\
  perm_ord (fun _ l => l).
Proof.
  split; [apply undirectedb_ok; vm_compute; reflexivity|]. split; [cbn; lia|]. split; [vm_compute; reflexivity|].
  split; [vm_compute; reflexivity|]. intros p l. apply Permutation_refl.
Qed.

(** "two edges of the same weight are drawn equally often" is false: in the path 1 - 0 - 2 with unit weights three of four
    numbers lead to the edge between 0 and 1 and one to the edge between 0 and 2 *)
Definition c89_path : graph := gr [[(1,1);(2,1)];[(0,1)];[(0,1)]].
Theorem C89_bias_refuted : undirected c89_path /\ wt c89_path 0 1 = wt c89_path 0 2 /\ forall d,
  ((d mod 4)%N = 2%N -> draw_edge (flat_wedges c89_path) d = Some (0, 2, 1%N)) /\
  ((d mod 4)%N <> 2%N -> draw_edge (flat_wedges c89_path) d = Some (0, 1, 1%N) \/ draw_edge (flat_wedges c89_path) d = Some (1, 0, 1%N)).
Proof.
  split; [apply undirectedb_ok; vm_compute; reflexivity|]. split; [reflexivity|]. intro d.
  unfold draw_edge. change (sumN snd (flat_wedges c89_path)) with 4%N. change (4 =? 0)%N with false. cbv iota.
  pose proof (N.mod_lt d 4 ltac:(lia)) as L. set (r := (d mod 4)%N) in *. clearbody r.
  assert (Q : r = 0%N \/ r = 1%N \/ r = 2%N \/ r = 3%N) by lia.
  destruct Q as [-> | [-> | [-> | ->]]]; (split; [intro; try discriminate; vm_compute; auto|intro X; vm_compute; auto; exfalso; auto]).
Qed.
Print Assumptions C89_bias_refuted.

(** "one_ks comes to an end" is false for three components: three single edges and a factor that asks for two vertices; no
    vertex is isolated, so mincut_contract lets this graph pass (mincut_contract.cpp:81-84) *)
Definition c89_three : graph := gr [[(1,1)];[(0,1)];[(3,1)];[(2,1)];[(5,1)];[(4,1)]].
Theorem C89_components_refuted ord draws red : perm_ord ord -> 4 <= red -> undirected c89_three /\ one_ks ord red draws c89_three = None.
Proof.
  intros Po Lr. assert (U : undirected c89_three) by (apply undirectedb_ok; vm_compute; reflexivity). split; [auto|].
  destruct (one_ks ord red draws c89_three) as [[H m]|] eqn:E; [exfalso|auto].
  destruct (C89_one_ks ord red draws c89_three H m Po U ltac:(cbn; lia) E) as (LH & _ & (ps & W & B) & [Cl _] & _).
  change (length c89_three) with 6 in *. rewrite Nat.min_r in LH by lia. change (6 - (6 - 2)) with 2 in LH.
  assert (X : forall x y, x < 6 -> y < 6 -> nth x m 0 = nth y m 0 -> x / 2 = y / 2).
  { intros x y Hx Hy Q. apply B in Q; [|auto|auto]. revert x y Hx Hy Q. intros x y _ _. apply (conn_in_relation ps (fun x y => x / 2 = y / 2)); try congruence.
    intros a b Hab. destruct (W a b Hab) as [w Hw].
    destruct a as [|[|[|[|[|[|a]]]]]]; cbn in Hw; try (destruct a; contradiction); destruct Hw as [Hw|[]]; injection Hw as <- _; reflexivity. }
  pose proof (Cl 0 ltac:(lia)) as A0. pose proof (Cl 2 ltac:(lia)) as A2. pose proof (Cl 4 ltac:(lia)) as A4. cbv beta in A0, A2, A4. rewrite LH in A0, A2, A4.
  assert (N02 : nth 0 m 0 <> nth 2 m 0) by (intro Q; apply X in Q; [discriminate Q|lia|lia]).
  assert (N04 : nth 0 m 0 <> nth 4 m 0) by (intro Q; apply X in Q; [discriminate Q|lia|lia]).
  assert (N24 : nth 2 m 0 <> nth 4 m 0) by (intro Q; apply X in Q; [discriminate Q|lia|lia]).
  lia.
Qed.
Print Assumptions C89_components_refuted.

(** mincut_contract reads its option -c into a variable of its own (mincut_contract.cpp:46, 66) while one_ks takes the factor of
    the configuration, which stays at its default 0.0 (configuration.h:75): the run contracts nothing, it only copies the graph *)
Theorem C89_option_refuted ord draws G : perm_ord ord -> undirected G -> 2 <= length G ->
  exists H m, one_ks ord 0 draws G = Some (H, m) /\ length H = length G /\
    (forall x y, x < length G -> y < length G -> nth x m 0 = nth y m 0 -> x = y) /\
    forall x y, x < length G -> y < length G -> wt H (nth x m 0) (nth y m 0) = wt G x y.
Proof.
  intros Po U Ln. unfold one_ks, n_reduce. cbn [Nat.min].
  assert (Ew : wks_sample (flat_wedges G) 0 (uf_init (length G)) draws = Some (uf_init (length G))) by (destruct draws; reflexivity).
  rewrite Ew. destruct (from_uf_ok ord G [] (uf_init (length G)) Po U (inv_init _)) as (H & m & Ef & Lm & LH & Cn & [Cl1 Cl2] & Ct & UH & _).
  assert (Inj : forall x y, x < length G -> y < length G -> nth x m 0 = nth y m 0 -> x = y).
  { intros x y Hx Hy Q. apply Cn in Q; [|auto|auto]. apply conn_nil in Q. auto. }
  exists H, m. split; [auto|]. split; [rewrite LH; reflexivity|]. split; [auto|].
  intros x y Hx Hy. destruct (Nat.eq_dec x y) as [<-|Ne].
  - assert (LF : forall (K : graph) v, undirected K -> wt K v v = 0%N).
    { intros K v [K1 _]. unfold wt. apply sumN_zero. intros [t w] I. apply filter_In in I. destruct I as [I Q]. apply Nat.eqb_eq in Q. cbn in Q. subst t. destruct (K1 v v w I). congruence. }
    rewrite !LF; auto.
  - rewrite (Ct _ _ (Cl1 x Hx) (Cl1 y Hy)); [|intro Q; apply Ne; apply Inj; auto].
    rewrite (bsum_ext (length G) _ (fun u => if u =? x then wt G x y else 0%N)).
    + apply (bsum_single (length G) (fun _ => wt G x y) x Hx).
    + intros u Hu. destruct (Nat.eqb_spec u x) as [->|Nx].
      * rewrite (bsum_ext (length G) _ (fun v => if v =? y then wt G x y else 0%N)); [apply (bsum_single (length G) (fun _ => wt G x y) y Hy)|].
        intros v Hv. rewrite Nat.eqb_refl. destruct (Nat.eqb_spec v y) as [->|Ny]; [rewrite Nat.eqb_refl; auto|].
        destruct (Nat.eqb_spec (nth v m 0) (nth y m 0)) as [Q|Q]; [exfalso; apply Ny; apply Inj; auto|auto].
      * apply bsum_zero. intros v Hv. destruct (Nat.eqb_spec (nth u m 0) (nth x m 0)) as [Q|Q]; [exfalso; apply Nx; apply Inj; auto|auto].
Qed.
Print Assumptions C89_option_refuted.
