(* P_LocalSearch3.v - flowBetweenBlocks, flowLocalSearch and improveSolution. *)
From Verif Require Import SpecMulti SpecFlow P_Cut P_Mutable P_MutableIO P_Multi P_Kernel P_Dynamic M_LocalSearch P_LocalSearch P_LocalSearch2 Prop_Flow.
From Coq Require Import Permutation.

(** the result does not depend on the fuel once there is enough *)
Definition settles {A} (f : nat -> option A) (x : A) : Prop := exists K, forall K', K <= K' -> f K' = Some x.

(** the choices a run can make *)
Record legal (n : nat) (ch : choices) : Prop := {
  lg_p1 : forall r, Permutation (c_perm1 ch r) (seq 0 n);
  lg_p2 : forall r, Permutation (c_perm2 ch r) (seq 0 n);
  lg_sh : forall r l, Permutation (c_shuf ch r l) l;
  lg_o0 : forall r k l, Permutation (c_ord0 ch r k l) l;
  lg_o1 : forall r k l, Permutation (c_ord1 ch r k l) l;
  lg_pk : forall r k i q, q <> [] -> In (c_pick ch r k i q) q }.

Section Between.
Context (R : list (list half)) (V : valid_rows R) (fixed : list bool) (sol : list nat) (a b : nat).
Context (LS : length sol = length R) (AB : a <> b).
Context (ord0 ord1 : list (nat * N) -> list (nat * N)) (O0 : forall l, Permutation (ord0 l) l) (O1 : forall l, Permutation (ord1 l) l).
Context (pick : nat -> list nat -> nat) (PK : forall i q, q <> [] -> In (pick i q) q) (gl : nat -> bool).

Theorem between_ok : exists sol' d f, settles (fun fuel => flow_between fuel ord0 ord1 pick gl R fixed a b sol) (sol', Z.of_N d, Z.of_N f) /\
  length sol' = length R /\ (forall v, length R <= v -> block_of sol' v = block_of sol v) /\ compat R fixed sol a b (block_of sol') /\
  (mtcost (length R) (wt (adj R)) (block_of sol') + d = mtcost (length R) (wt (adj R)) (block_of sol))%N /\
  forall g, compat R fixed sol a b g -> (mtcost (length R) (wt (adj R)) (block_of sol') <= mtcost (length R) (wt (adj R)) g)%N.
Proof.
  set (n := length R). set (W := wt (adj R)).
  destruct (block_map_ok R fixed sol a b LS AB n 0 (repeat (n + 2) n) 2) as (m & id & EM & MP).
  { constructor; try (intros; lia). apply repeat_length. } { reflexivity. }
  destruct (start_cut id) as (SV & SN & SC).
  destruct (pair_nodes_ok R V fixed sol a b LS AB m id MP (seq 0 n) (mk_fbs 0 (start_construction id) [] [])) as (s & ES & CL & BW & QC).
  { intros u Hu. apply in_seq in Hu. unfold n in Hu. lia. } { constructor; cbn; auto; intros k w []. }
  cbn [b_w] in BW. rewrite N.add_0_l in BW. change (sumN ?f (seq 0 n)) with (bsum n f) in BW.
  pose proof (mp_id _ _ _ _ _ _ _ _ MP) as ID.
  destruct (add_fixed_ok 0 (ord0 (b_e0 s)) (b_G s) (cl_v _ _ CL)) as (G0 & E0 & V0 & N0 & C0).
  { rewrite (cl_n _ _ CL). lia. } { intros k w I. apply (Permutation_in _ (O0 _)) in I. pose proof (cl_0 _ _ CL k w I). rewrite (cl_n _ _ CL). lia. }
  destruct (add_fixed_ok 1 (ord1 (b_e1 s)) G0 V0) as (G1 & E1 & V1 & N1 & C1).
  { rewrite N0, (cl_n _ _ CL). lia. } { intros k w I. apply (Permutation_in _ (O1 _)) in I. pose proof (cl_1 _ _ CL k w I). rewrite N0, (cl_n _ _ CL). lia. }
  assert (L1 : length (m_rows G1) = id) by (change (m_n G1 = id); rewrite N1, N0; apply (cl_n _ _ CL)).
  assert (CUT : forall S, cutw (length (m_rows G1)) (wt (adj (m_rows G1))) S = etot R (fun u t w => if sel sol a b m u t then dif S (nth u m 0) (nth t m 0) w else 0%N)).
  { intro S. change (gcut G1 S = etot R (fun u t w => if sel sol a b m u t then dif S (nth u m 0) (nth t m 0) w else 0%N)). rewrite C1, C0.
    rewrite (sumN_perm _ _ _ (O0 (b_e0 s))), (sumN_perm _ _ _ (O1 (b_e1 s))). specialize (QC S). unfold qcut at 1 in QC. rewrite QC. unfold qcut. cbn [b_G b_e0 b_e1 sumN]. rewrite SC. unfold etot, bsum. fold n. lia. }
  destruct (C30_max_flow_min_cut (m_rows G1) [0; 1] 0 0 (proj1 V1)) with (pick := pick) (gl := gl) as (fuel & c & zero & SOL & _ & _ & ISO & CW & MIN).
  { rewrite L1. intros t [<-|[<-|[]]]; lia. } { repeat constructor; cbn; intuition discriminate. } { reflexivity. } { exact PK. }
  destruct ISO as [I0 I1]. specialize (I1 1 ltac:(cbn; auto) ltac:(discriminate)).
  pose proof (compat_self R fixed sol a b) as CS.
  destruct (reassign_ok R fixed sol a b LS AB m zero) with (c := n) (k := 0) (cur := sol) as (sol' & ER & LR & AR & AO); auto; try (intros; lia).
  { cbv beta. intros v Hv I F. rewrite (mp_fix _ _ _ _ _ _ _ _ MP v Hv I F). destruct (block_of sol v =? a); auto. }
  cbv beta in AR.
  set (g' := block_of sol').
  assert (S' : forall v, v < length R -> in_pair sol a b v = true -> existsb (Nat.eqb (nth v m 0)) zero = Nat.eqb (g' v) a).
  { intros v Hv I. unfold g'. rewrite AR by auto. rewrite I. destruct (existsb (Nat.eqb (nth v m 0)) zero); [rewrite Nat.eqb_refl; reflexivity|]. symmetry. apply Nat.eqb_neq. auto. }
  assert (CP : compat R fixed sol a b g').
  { split; [|split].
    - cbv beta. intros v Hv I. unfold g'. rewrite AR by auto. rewrite I. reflexivity.
    - cbv beta. intros v Hv F. unfold g'. rewrite AR by auto. destruct (in_pair sol a b v) eqn:I; [|reflexivity].
      rewrite (mp_fix _ _ _ _ _ _ _ _ MP v Hv I F). destruct CS as (_ & _ & CS3). destruct (CS3 v Hv I) as [Q|Q]; rewrite Q.
      + rewrite Nat.eqb_refl. rewrite I0. reflexivity.
      + destruct (Nat.eqb_spec b a); [congruence|]. rewrite I1. reflexivity.
    - cbv beta. intros v Hv I. unfold g'. rewrite AR by auto. rewrite I. destruct (existsb (Nat.eqb (nth v m 0)) zero); auto. }
  assert (P' : pcost R sol a b m g' = c).
  { rewrite <- CW, CUT. symmetry. apply (etot_side R V sol a b AB m g' (fun v => existsb (Nat.eqb v) zero)); [exact S'|apply CP]. }
  assert (PG : forall g, compat R fixed sol a b g -> (c <= pcost R sol a b m g)%N).
  { intros g Hg. rewrite <- (etot_side R V sol a b AB m g (side R fixed sol a b m g)); [|intros v Hv I; apply (side_at R fixed sol a b LS AB m id MP g v Hg Hv I)|apply Hg].
    rewrite <- CUT. apply MIN. split; [reflexivity|]. intros t [<-|[<-|[]]] N'; [congruence|reflexivity]. }
  assert (P0 : b_w s = pcost R sol a b m (block_of sol)).
  { rewrite BW. apply (etot_wt R (fun u v => sel sol a b m u v && negb (Nat.eqb (block_of sol u) (block_of sol v))) V). }
  exists sol', (b_w s - c)%N, c. split.
  - exists fuel. intros K HK. unfold flow_between. fold n. rewrite EM, ES, E0, E1, (SOL K HK). rewrite ER. cbn [option_map]. f_equal. f_equal. f_equal.
    specialize (PG _ CS). lia.
  - split; [auto|]. split; [auto|]. split; [exact CP|]. fold n W g'. unfold n, W. rewrite (cost_split R V fixed sol a b LS AB m id MP g' CP), (cost_split R V fixed sol a b LS AB m id MP _ CS). rewrite P', P0.
    split; [specialize (PG _ CS); lia|]. intros g Hg. rewrite (cost_split R V fixed sol a b LS AB m id MP g Hg). specialize (PG g Hg). lia.
Qed.
End Between.

(** ** flowLocalSearch *)
Section Flow.
Context (R : list (list half)) (V : valid_rows R) (fixed : list bool) (kt nt : nat) (Hk : kt <= nt) (ch : choices) (LG : legal (length R) ch).
Let n := length R.

Definition square (bc : list (list N)) : Prop := length bc = kt /\ forall i, i < kt -> length (nth i bc []) = kt.

Lemma conn_edge_ok sol u bc t w r : (forall v, v < n -> block_of sol v < kt) -> u < n -> t < n -> square bc ->
  exists bc', conn_edge fixed sol u bc (t, w, r) = Some bc' /\ square bc'.
Proof.
  intros RG Hu Ht [L1 L2]. unfold conn_edge. destruct (_ && _); [|exists bc; split; [auto|split; auto]].
  pose proof (RG u Hu) as Bu. pose proof (RG t Ht) as Bt. rewrite L1, (L2 _ Bu). destruct (Nat.ltb_spec (block_of sol u) kt); [|lia]. destruct (Nat.ltb_spec (block_of sol t) kt); [|lia]. cbn [andb].
  eexists. split; [reflexivity|]. split; [rewrite upd_length; auto|]. intros i Hi. destruct (Nat.eq_dec i (block_of sol u)) as [Q|Q].
  - rewrite Q, nth_upd_eq by lia. rewrite upd_length. auto.
  - rewrite nth_upd_neq by auto. auto.
Qed.

Lemma connectivity_ok sol : (forall v, v < n -> block_of sol v < kt) -> exists bc, connectivity R fixed kt sol = Some bc /\ square bc.
Proof.
  intro RG. unfold connectivity.
  assert (ROW : forall u, u < n -> forall row bc, (forall h, In h row -> In h (nth u R [])) -> square bc -> exists bc', fold_opt (conn_edge fixed sol u) row bc = Some bc' /\ square bc').
  { intros u Hu. induction row as [|[[t w] r] row IH]; intros bc H SQ; cbn [fold_opt]; [exists bc; auto|].
    destruct (row_target R V u t w r (H _ (or_introl eq_refl))) as [Ht _].
    destruct (conn_edge_ok sol u bc t w r RG Hu Ht SQ) as (bc1 & E & SQ1). rewrite E. apply IH; auto. intros h I. apply H. right. auto. }
  assert (ALL : forall us bc, (forall u, In u us -> u < n) -> square bc -> exists bc', fold_opt (fun bc u => fold_opt (conn_edge fixed sol u) (nth u R []) bc) us bc = Some bc' /\ square bc').
  { induction us as [|u us IH]; intros bc H SQ; cbn [fold_opt]; [exists bc; auto|].
    destruct (ROW u (H u (or_introl eq_refl)) (nth u R []) bc ltac:(auto) SQ) as (bc1 & E & SQ1). rewrite E. apply IH; auto. intros v I. apply H. right. auto. }
  apply ALL.
  - intros u Hu. apply in_seq in Hu. unfold n. lia.
  - split; [apply repeat_length|]. intros i Hi. rewrite nth_repeat_lt by auto. apply repeat_length.
Qed.

Lemma changed_pairs_in bc prev i j : In (i, j) (changed_pairs kt bc prev) -> i < j /\ j < kt.
Proof.
  unfold changed_pairs. intro H. apply in_flat_map in H. destruct H as (x & Hx & H). apply in_flat_map in H. destruct H as (y & Hy & H). apply in_seq in Hx, Hy.
  destruct (Nat.ltb_spec x y); cbn [andb] in H; [|destruct H]. destruct (negb _); [|destruct H]. destruct H as [E|[]]. injection E as <- <-. lia.
Qed.

Lemma between_step sol a b sol' d : a < kt -> b < kt -> length sol = n -> length sol' = n -> (forall v, n <= v -> block_of sol' v = block_of sol v) -> compat R fixed sol a b (block_of sol') ->
  (mtcost n (wt (adj R)) (block_of sol') + d = mtcost n (wt (adj R)) (block_of sol))%N -> step_ok R fixed kt sol sol' (Z.of_N d).
Proof.
  intros Ha Hb L L' OUT (C1 & C2 & C3) E. constructor; [congruence| | | |lia|].
  - intros RG v Hv. destruct (in_pair sol a b v) eqn:I; [destruct (C3 v Hv I) as [Q|Q]; rewrite Q; auto|rewrite (C1 v Hv I); auto].
  - intros v F. destruct (Nat.lt_ge_cases v n) as [Hv|Hv]; [apply C2; auto|apply OUT; auto].
  - unfold cost. fold n. lia.
  - intros _. unfold cost. fold n. lia.
Qed.

Lemma pairs_ok r : forall ps k sol prev imp, (forall a b, In (a, b) ps -> a < b /\ b < kt) -> length sol = n ->
  exists sol' prev' d, settles (fun fuel => flow_pairs fuel ch R fixed r k ps sol prev imp) (sol', prev', (imp + d)%Z) /\ step_ok R fixed kt sol sol' d.
Proof.
  induction ps as [|[a b] ps IH]; intros k sol prev imp H L; cbn [flow_pairs].
  - exists sol, prev, 0%Z. split; [exists 0; intros; rewrite Z.add_0_r; reflexivity|apply (step_refl R fixed kt nt Hk)].
  - destruct (c_late ch r k).
    { exists sol, prev, 0%Z. split; [exists 0; intros; rewrite Z.add_0_r; reflexivity|apply (step_refl R fixed kt nt Hk)]. }
    destruct (H a b (or_introl eq_refl)) as [Hab Hb].
    destruct (between_ok R V fixed sol a b L ltac:(lia) (c_ord0 ch r k) (c_ord1 ch r k) (lg_o0 _ _ LG r k) (lg_o1 _ _ LG r k) (c_pick ch r k) (lg_pk _ _ LG r k) (c_gl ch r k)) as (sol1 & d1 & f & [K1 S1] & L1 & OUT & CP & CE & _).
    pose proof (between_step sol a b sol1 d1 ltac:(lia) Hb L L1 OUT CP CE) as ST1.
    destruct (IH (S k) sol1 (upd prev a (upd (nth a prev []) b (Z.to_N (Z.of_N f)))) (imp + Z.of_N d1)%Z ltac:(intros x y I; apply H; right; auto) L1) as (sol2 & prev2 & d2 & [K2 S2] & ST2).
    exists sol2, prev2, (Z.of_N d1 + d2)%Z. split; [|eapply (step_trans R fixed kt nt Hk); eauto].
    exists (Nat.max K1 K2). intros K HK. rewrite S1 by lia. rewrite S2 by lia. rewrite Z.add_assoc. reflexivity.
Qed.

Lemma flow_search_ok r sol prev : (forall v, v < n -> block_of sol v < kt) -> length sol = n ->
  exists sol' prev' d, settles (fun fuel => flow_search fuel ch R fixed kt r sol prev) (sol', prev', d) /\ step_ok R fixed kt sol sol' d.
Proof.
  intros RG L. unfold flow_search. destruct (c_late0 ch r).
  { exists sol, prev, 0%Z. split; [exists 0; intros; reflexivity|apply (step_refl R fixed kt nt Hk)]. }
  destruct (connectivity_ok sol RG) as (bc & E & _). rewrite E.
  destruct (pairs_ok r (c_shuf ch r (changed_pairs kt bc prev)) 0 sol prev 0) as (sol' & prev' & d & S & ST); auto.
  { intros a b I. apply (Permutation_in _ (lg_sh _ _ LG r _)) in I. apply changed_pairs_in in I. exact I. }
  exists sol', prev', d. split; [exact S|exact ST].
Qed.

Lemma cost_pos sol : (0 <= cost R sol)%Z.
Proof. unfold cost. lia. Qed.

Lemma flow_loop_ok : forall c r sol prev tot, Z.to_nat (cost R sol) <= c -> (forall v, v < n -> block_of sol v < kt) -> length sol = n ->
  exists sol' d, (exists K, forall K1 K2, K <= K1 -> K <= K2 -> flow_loop K1 K2 ch R fixed kt r sol prev tot = Some (sol', (tot + d)%Z)) /\ step_ok R fixed kt sol sol' d.
Proof.
  induction c as [|c IH]; intros r sol prev tot HC RG L; destruct (flow_search_ok r sol prev RG L) as (sol1 & prev1 & d1 & [K1 S1] & ST1).
  - exists sol1, d1. split; [|auto]. exists (S K1). intros A B HA HB. destruct A; [lia|]. cbn [flow_loop]. rewrite S1 by lia. pose proof (so_cost _ _ _ _ _ _ ST1). pose proof (cost_pos sol1).
    destruct (Z.ltb_spec 0 d1); [lia|]. reflexivity.
  - destruct (Z.ltb_spec 0 d1) as [P|P].
    + destruct (IH (S r) sol1 prev1 (tot + d1)%Z) as (sol2 & d2 & [K2 S2] & ST2).
      { pose proof (so_cost _ _ _ _ _ _ ST1). pose proof (cost_pos sol1). lia. } { apply (so_range _ _ _ _ _ _ ST1 RG). } { rewrite (so_len _ _ _ _ _ _ ST1). auto. }
      exists sol2, (d1 + d2)%Z. split; [|eapply (step_trans R fixed kt nt Hk); eauto]. exists (S (Nat.max K1 K2)). intros A B HA HB. destruct A; [lia|]. cbn [flow_loop]. rewrite S1 by lia.
      destruct (Z.ltb_spec 0 d1); [|lia]. rewrite S2 by lia. rewrite Z.add_assoc. reflexivity.
    + exists sol1, d1. split; [|auto]. exists (S K1). intros A B HA HB. destruct A; [lia|]. cbn [flow_loop]. rewrite S1 by lia. destruct (Z.ltb_spec 0 d1); [lia|]. reflexivity.
Qed.

Lemma gain_loop_ok perm : (forall r, Permutation (perm r) (seq 0 n)) -> forall c r sol tot, Z.to_nat (cost R sol) <= c -> (forall v, v < n -> block_of sol v < kt) -> length sol = n ->
  exists sol' d, settles (fun fuel => gain_loop fuel R fixed nt perm r sol tot) (sol', (tot + d)%Z) /\ step_ok R fixed kt sol sol' d.
Proof.
  intro HP. induction c as [|c IH]; intros r sol tot HC RG L; destruct (gain_ok R V fixed kt nt sol Hk (perm r) L RG (HP r)) as (sol1 & d1 & S1 & ST1 & _).
  - exists sol1, d1. split; [|auto]. exists 1. intros A HA. destruct A; [lia|]. cbn [gain_loop]. rewrite S1. pose proof (so_cost _ _ _ _ _ _ ST1). pose proof (cost_pos sol1).
    destruct (Z.ltb_spec 0 d1); [lia|]. reflexivity.
  - destruct (Z.ltb_spec 0 d1) as [P|P].
    + destruct (IH (S r) sol1 (tot + d1)%Z) as (sol2 & d2 & [K2 S2] & ST2).
      { pose proof (so_cost _ _ _ _ _ _ ST1). pose proof (cost_pos sol1). lia. } { apply (so_range _ _ _ _ _ _ ST1 RG). } { rewrite (so_len _ _ _ _ _ _ ST1). auto. }
      exists sol2, (d1 + d2)%Z. split; [|eapply (step_trans R fixed kt nt Hk); eauto]. exists (S K2). intros A HA. destruct A; [lia|]. cbn [gain_loop]. rewrite S1.
      destruct (Z.ltb_spec 0 d1); [|lia]. rewrite S2 by lia. rewrite Z.add_assoc. reflexivity.
    + exists sol1, d1. split; [|auto]. exists 1. intros A HA. destruct A; [lia|]. cbn [gain_loop]. rewrite S1. destruct (Z.ltb_spec 0 d1); [lia|]. reflexivity.
Qed.

Theorem improve_ok sol : (forall v, v < n -> block_of sol v < kt) -> length sol = n ->
  exists sol' d, settles (fun fuel => improve_solution fuel ch R fixed kt nt sol) (sol', d) /\ step_ok R fixed kt sol sol' d.
Proof.
  intros RG L. destruct (gain_loop_ok (c_perm1 ch) (lg_p1 _ _ LG) _ 0 sol 0 (le_n _) RG L) as (sol1 & d1 & [K1 S1] & ST1).
  assert (RG1 := so_range _ _ _ _ _ _ ST1 RG). assert (L1 : length sol1 = n) by (rewrite (so_len _ _ _ _ _ _ ST1); auto).
  destruct (flow_loop_ok _ 0 sol1 (repeat (repeat 0%N kt) kt) (0 + d1) (le_n _) RG1 L1) as (sol2 & d2 & [K2 S2] & ST2).
  assert (RG2 := so_range _ _ _ _ _ _ ST2 RG1). assert (L2 : length sol2 = n) by (rewrite (so_len _ _ _ _ _ _ ST2); auto).
  destruct (gain_loop_ok (c_perm2 ch) (lg_p2 _ _ LG) _ 0 sol2 (0 + d1 + d2) (le_n _) RG2 L2) as (sol3 & d3 & [K3 S3] & ST3).
  exists sol3, (d1 + d2 + d3)%Z. split.
  - exists (Nat.max K1 (Nat.max K2 K3)). intros K HK. unfold improve_solution. rewrite S1 by lia. rewrite S2 by lia. rewrite S3 by lia. reflexivity.
  - eapply (step_trans R fixed kt nt Hk); [|exact ST3]. eapply (step_trans R fixed kt nt Hk); eauto.
Qed.
End Flow.
