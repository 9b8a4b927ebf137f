(* Prop_LocalSearch.v - property C65: local search never makes a multiterminal cut worse, reports a valid
   improvement, moves no fixed vertex and terminates. *)
From Verif Require Import SpecMulti SpecFlow P_Mutable P_Multi M_LocalSearch P_LocalSearch P_LocalSearch2 P_LocalSearch3 Prop_Mutable Prop_Flow.
From Coq Require Import Permutation.

Definition icost (R : list (list half)) (sol : list nat) : N := mtcost (length R) (wt (adj R)) (fun v => nth v sol 0).

(** for every permutation, shuffle, hash order, queue order and pattern of timeouts *)
Theorem C65_local_search : forall R ts fixed nt sol ch, valid_rows R -> legal (length R) ch -> length ts <= nt -> length sol = length R ->
  (forall t, In t ts -> t < length R) ->
  (forall t, In t ts -> nth t fixed false = true) -> separates (length R) ts (fun v => nth v sol 0) ->
  exists sol' d, (exists K, forall K', K <= K' -> improve_solution K' ch R fixed (length ts) nt sol = Some (sol', Z.of_N d)) /\
    length sol' = length R /\ separates (length R) ts (fun v => nth v sol' 0) /\
    (forall v, nth v fixed false = true -> nth v sol' 0 = nth v sol 0) /\
    (icost R sol' + d <= icost R sol)%N /\
    ((forall v, NoDup (map (fun h : half => fst (fst h)) (nth v R []))) -> (icost R sol' + d = icost R sol)%N).
Proof.
  intros R ts fixed nt sol ch V LG Hk L TR TF [S1 S2]. destruct (improve_ok R V fixed (length ts) nt Hk ch LG sol S1 L) as (sol' & d & ST & [A B C D E F]).
  exists sol', (Z.to_N d). rewrite Z2N.id by auto. split; [exact ST|]. split; [congruence|]. split; [split|split; [|split]].
  - apply B. exact S1.
  - intros i Hi. etransitivity; [|apply (S2 i Hi)]. apply C. apply TF. apply nth_In. auto.
  - exact C.
  - unfold cost in D. unfold icost. fold (block_of sol) (block_of sol'). change (fun v => nth v sol 0) with (block_of sol). change (fun v => nth v sol' 0) with (block_of sol'). lia.
  - intro NP. specialize (F NP). unfold cost in F. unfold icost. change (fun v => nth v sol 0) with (block_of sol). change (fun v => nth v sol' 0) with (block_of sol'). lia.
Qed.
Print Assumptions C65_local_search.

(** flowBetweenBlocks leaves the best assignment of the free vertices of the two blocks *)
Theorem C65_pair_optimal : forall R fixed sol a b ord0 ord1 pick gl, valid_rows R -> length sol = length R -> a <> b ->
  (forall l, Permutation (ord0 l) l) -> (forall l, Permutation (ord1 l) l) -> (forall i q, q <> [] -> In (pick i q) q) ->
  exists sol' d f, (exists K, forall K', K <= K' -> flow_between K' ord0 ord1 pick gl R fixed a b sol = Some (sol', Z.of_N d, f)) /\
    (icost R sol' + d = icost R sol)%N /\
    (forall v, v < length R -> nth v fixed false = true \/ (nth v sol 0 <> a /\ nth v sol 0 <> b) -> nth v sol' 0 = nth v sol 0) /\
    (forall v, v < length R -> nth v sol 0 = a \/ nth v sol 0 = b -> nth v sol' 0 = a \/ nth v sol' 0 = b) /\
    forall g, (forall v, v < length R -> nth v fixed false = true \/ (nth v sol 0 <> a /\ nth v sol 0 <> b) -> g v = nth v sol 0) ->
      (forall v, v < length R -> nth v sol 0 = a \/ nth v sol 0 = b -> g v = a \/ g v = b) ->
      (icost R sol' <= mtcost (length R) (wt (adj R)) g)%N.
Proof.
  intros R fixed sol a b ord0 ord1 pick gl V L AB O0 O1 PK.
  destruct (between_ok R V fixed sol a b L AB ord0 ord1 O0 O1 pick PK gl) as (sol' & d & f & ST & _ & _ & (C1 & C2 & C3) & CE & OPT).
  assert (IN : forall v, in_pair sol a b v = true <-> nth v sol 0 = a \/ nth v sol 0 = b) by (intro v; unfold in_pair, block_of; rewrite orb_true_iff, !Nat.eqb_eq; tauto).
  assert (OUT : forall v, in_pair sol a b v = false <-> nth v sol 0 <> a /\ nth v sol 0 <> b) by (intro v; unfold in_pair, block_of; rewrite orb_false_iff, !Nat.eqb_neq; tauto).
  exists sol', d, (Z.of_N f). split; [exact ST|]. split; [exact CE|]. split; [|split].
  - intros v Hv [F|F]; [apply (C2 v Hv F)|]. apply (C1 v Hv). apply OUT. exact F.
  - intros v Hv F. apply (C3 v Hv). apply IN. exact F.
  - intros g G1 G2. apply OPT. split; [|split].
    + intros v Hv F. apply G1; auto. right. apply OUT. exact F.
    + intros v Hv F. apply G1; auto.
    + intros v Hv F. apply G2; auto. apply IN. exact F.
Qed.
Print Assumptions C65_pair_optimal.

(** a pass of gainLocalSearch improves at least by the best move of the vertex it looks at first *)
Theorem C65_first_move : forall R fixed kt nt sol x vs b, valid_rows R -> kt <= nt -> length sol = length R ->
  (forall v, v < length R -> nth v sol 0 < kt) -> Permutation (x :: vs) (seq 0 (length R)) -> nth x fixed false = false -> b < kt ->
  exists sol' d, gain_search R fixed nt (x :: vs) sol = Some (sol', Z.of_N d) /\ (icost R sol' + d <= icost R sol)%N /\
    (icost R sol <= mtcost (length R) (wt (adj R)) (fun v => if Nat.eqb v x then b else nth v sol 0%nat) + d)%N.
Proof.
  intros R fixed kt nt sol x vs b V Hk L RG P FX Hb.
  destruct (gain_ok R V fixed kt nt sol Hk (x :: vs) L RG P) as (sol' & d & E & [A1 A2 A3 A4 A5 A6] & FIRST).
  exists sol', (Z.to_N d). rewrite Z2N.id by auto. split; [exact E|].
  assert (Hx : x < length R) by (assert (I : In x (x :: vs)) by (left; auto); apply (Permutation_in _ P), in_seq in I; lia).
  unfold cost in A4. unfold icost. change (fun v => nth v sol 0) with (block_of sol). change (fun v => nth v sol' 0) with (block_of sol'). split; [lia|].
  change (fun v => if Nat.eqb v x then b else nth v sol 0) with (mv (block_of sol) x b).
  pose proof (move_cost (length R) (wt (adj R)) (block_of sol) x b (P_MutableIO.valid_symm R V) Hx) as MC.
  destruct (Nat.eq_dec b (block_of sol x)) as [Q|Q].
  - rewrite Q in MC |- *. lia.
  - specialize (FIRST x vs b eq_refl FX Hb Q). lia.
Qed.
Print Assumptions C65_first_move.

(** terminals 0, 1 and 2; first gains alone find nothing and the flow between blocks does *)
Definition ls_ops : list mop := [NewOrder 0 3 4; NewOrder 3 4 3; NewOrder 4 5 3; NewOrder 1 5 2; NewOrder 3 6 2; NewOrder 6 7 5; NewOrder 2 7 3; NewOrder 4 7 1;
  NewOrder 1 6 1; NewOrder 5 8 2; NewOrder 8 1 3; NewOrder 8 2 2].
Definition ls_rows : list (list half) := m_rows (mg_of 9 ls_ops).
Definition ls_fixed : list bool := [true; true; true; false; false; false; false; false; false].
Definition ls_ch (n : nat) : choices := mk_ch (fun _ => seq 0 n) (fun _ => rev (seq 0 n)) (fun _ => false) (fun _ _ => false) (fun _ l => l) (fun _ _ l => l) (fun _ _ l => rev l)
  (fun _ _ k q => Prop_Flow.first_of k q) (fun _ _ k => k =? 2).
Lemma ls_ch_legal n : legal n (ls_ch n).
Proof.
  constructor; cbn; intros; auto; try apply Permutation_refl; try (apply Permutation_sym, Permutation_rev).
  destruct q as [|x q]; [congruence|left; reflexivity].
Qed.
Example c65_hyps : valid_rows ls_rows /\ legal (length ls_rows) (ls_ch 9) /\ length [0; 1; 2] <= 3 /\ length [0; 1; 2; 2; 2; 2; 2; 2; 2] = length ls_rows /\
  (forall t, In t [0; 1; 2] -> t < length ls_rows) /\ (forall t, In t [0; 1; 2] -> nth t ls_fixed false = true) /\
  separates (length ls_rows) [0; 1; 2] (fun v => nth v [0; 1; 2; 2; 2; 2; 2; 2; 2] 0) /\ (forall v, NoDup (map (fun h : half => fst (fst h)) (nth v ls_rows []))).
Proof.
  destruct (mg_of_valid 9 ls_ops eq_refl) as [A [B C]]. assert (L : length ls_rows = 9) by (vm_compute; reflexivity). rewrite L.
  split; [apply A|]. split; [apply ls_ch_legal|]. split; [cbn; lia|]. split; [reflexivity|]. split; [intros t [<-|[<-|[<-|[]]]]; lia|].
  split; [intros t [<-|[<-|[<-|[]]]]; reflexivity|]. split.
  - split; [intros v Hv; do 9 (destruct v as [|v]; [cbn; lia|]); lia|]. intros i Hi. cbn in Hi. do 3 (destruct i as [|i]; [reflexivity|]). lia.
  - intro v. do 9 (destruct v as [|v]; [vm_compute; repeat constructor; cbn; intuition discriminate|]). rewrite nth_overflow by lia. constructor.
Qed.
Example c65_gain_nothing : gain_loop 100 ls_rows ls_fixed 3 (c_perm1 (ls_ch 9)) 0 [0; 1; 2; 2; 2; 2; 2; 2; 2] 0 = Some ([0; 1; 2; 2; 2; 2; 2; 2; 2], 0%Z).
Proof. vm_compute. reflexivity. Qed.
Example c65_run : improve_solution 100 (ls_ch 9) ls_rows ls_fixed 3 3 [0; 1; 2; 2; 2; 2; 2; 2; 2] = Some ([0; 1; 2; 0; 0; 1; 0; 0; 1], 1%Z) /\
  icost ls_rows [0; 1; 2; 2; 2; 2; 2; 2; 2] = 10%N /\ icost ls_rows [0; 1; 2; 0; 0; 1; 0; 0; 1] = 9%N.
Proof. vm_compute. auto. Qed.
Example c65_run2 : improve_solution 100 (ls_ch 9) ls_rows ls_fixed 3 3 [0; 1; 2; 1; 2; 0; 1; 0; 2] = Some ([0; 1; 2; 0; 0; 1; 0; 0; 1], 17%Z) /\
  icost ls_rows [0; 1; 2; 1; 2; 0; 1; 0; 2] = 26%N.
Proof. vm_compute. auto. Qed.
Example c65_first : gain_search ls_rows ls_fixed 3 (3 :: [0; 1; 2; 4; 5; 6; 7; 8]) [0; 1; 2; 1; 2; 0; 1; 0; 2] = Some ([0; 1; 2; 0; 0; 0; 0; 0; 1], 16%Z) /\
  icost ls_rows [0; 1; 2; 0; 2; 0; 1; 0; 2] = 24%N.
Proof. vm_compute. auto. Qed.

(** with parallel edges the double move counts one of them only: the solution gets better by 5, reported is 1 *)
Definition lp_ops : list mop := [NewOrder 2 3 2; NewOrder 2 3 2; NewOrder 1 2 3; NewOrder 1 3 3; NewOrder 0 2 1].
Definition lp_rows : list (list half) := m_rows (mg_of 4 lp_ops).
Theorem C65_exact_refuted : exists R ts fixed nt sol ch sol' d, valid_rows R /\ legal (length R) ch /\ length ts <= nt /\ length sol = length R /\
  (forall t, In t ts -> t < length R) /\ (forall t, In t ts -> nth t fixed false = true) /\ separates (length R) ts (fun v => nth v sol 0) /\
  improve_solution 100 ch R fixed (length ts) nt sol = Some (sol', Z.of_N d) /\ (icost R sol' + d < icost R sol)%N.
Proof.
  exists lp_rows, [0; 1], [true; true; false; false], 2, [0; 1; 0; 0], (ls_ch 4), [0; 1; 1; 1], 1%N.
  destruct (mg_of_valid 4 lp_ops eq_refl) as [A [B C]]. assert (L : length lp_rows = 4) by (vm_compute; reflexivity). rewrite L.
  split; [apply A|]. split; [apply ls_ch_legal|]. split; [cbn; lia|]. split; [reflexivity|]. split; [intros t [<-|[<-|[]]]; lia|].
  split; [intros t [<-|[<-|[]]]; reflexivity|]. split.
  - split; [intros v Hv; do 4 (destruct v as [|v]; [cbn; lia|]); lia|]. intros i Hi. cbn in Hi. do 2 (destruct i as [|i]; [reflexivity|]). lia.
  - vm_compute. auto.
Qed.
Print Assumptions C65_exact_refuted.
