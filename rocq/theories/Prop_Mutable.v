(* Prop_Mutable.v - properties C21-C24: the mutable graph. *)
From Verif Require Import SpecCut P_Cut M_Mutable P_Mutable P_Mutable2 P_Mutable3 P_Mutable7 P_Mutable8.

(** ** C21: building and editing a graph *)

(** one API call *)
Inductive mop := NewOrder (s t : nat) (w : N) | NewEdge (s t : nat) (w : N) | SetWeight (v e : nat) (w : N) | DelEdge (v e : nat).

Definition run_op (G : mg) (o : mop) : option mg :=
  match o with
  | NewOrder s t w => new_edge_order G s t w
  | NewEdge s t w => m_new_edge G s t w
  | SetWeight v e w => m_set_weight G v e w
  | DelEdge v e => m_delete_edge G v e
  end.

(** arguments in range of the current graph *)
Definition in_range (n : nat) (G : mg) (o : mop) : Prop :=
  match o with
  | NewOrder s t _ | NewEdge s t _ => s < n /\ t < n
  | SetWeight v e _ | DelEdge v e => v < n /\ e < length (nth v (m_rows G) [])
  end.

(** the symmetric table: on the pair {s,t} take away dec and add inc *)
Definition bump (T : wfun) (s t : nat) (dec inc : N) : wfun :=
  fun a b => if ((a =? s) && (b =? t)) || ((a =? t) && (b =? s)) then (T a b - dec + inc)%N else T a b.

(** the same call on the table; t and w0 are what getEdgeTarget and getEdgeWeight answer before the call *)
Definition table_op (G : mg) (o : mop) (T : wfun) : wfun :=
  match o with
  | NewOrder s t w => if s =? t then T else bump T s t 0 w
  | NewEdge s t w => if s <? t then bump T s t 0 w else T
  | SetWeight v e w => match nth_error (nth v (adj (m_rows G)) []) e with Some (t, w0) => bump T v t w0 w | None => T end
  | DelEdge v e => match nth_error (nth v (adj (m_rows G)) []) e with Some (t, w0) => bump T v t w0 0 | None => T end
  end.

(** graphs reached from start_construction n by in-range calls, with the table built alongside *)
Inductive reaches (n : nat) : mg -> wfun -> Prop :=
| reach_start : reaches n (start_construction n) (fun _ _ => 0%N)
| reach_op G T o G' : reaches n G T -> in_range n G o -> run_op G o = Some G' -> reaches n G' (table_op G o T).

Lemma start_valid n : mvalid (start_construction n) /\ m_n (start_construction n) = n /\
  forall a b, wt (adj (m_rows (start_construction n))) a b = 0%N.
Proof.
  assert (R : forall v, nth v (repeat (@nil half) n) [] = []) by (intro v; apply nth_repeat).
  unfold mvalid, m_n, start_construction. cbn [m_rows m_deg m_ne]. rewrite repeat_length. split; [split; [|split]|split; [auto|]].
  - intros v e t w r H. rewrite R in H. destruct e; discriminate.
  - split; [rewrite !repeat_length; auto|]. intros v Hv. rewrite R. cbn. rewrite nth_repeat. reflexivity.
  - unfold count_exact. symmetry. apply sumN_zero. intros row Hr. apply repeat_spec in Hr. subst row. reflexivity.
  - intros a b. rewrite wt_ls, ls_nodead, R. reflexivity.
Qed.

Lemma start_groups n : groups_exact n (m_cont (start_construction n)) (m_pos (start_construction n)).
Proof.
  unfold groups_exact, start_construction. cbn. rewrite map_length, seq_length. split; [auto|]. intros p x Hp.
  rewrite nth_indep with (d' := [0]) by (rewrite map_length, seq_length; auto).
  rewrite (map_nth (fun i => [i])), seq_nth by auto. cbn. split.
  - intros [<-|[]]. split; [auto|]. apply seq_nth. auto.
  - intros [Hx E]. rewrite seq_nth in E by auto. auto.
Qed.

Lemma wstep_bump W W' T n s t dec inc : (forall a b, a < n -> b < n -> W a b = T a b) ->
  (forall a b, a < n -> b < n -> ((a =? s) && (b =? t)) || ((a =? t) && (b =? s)) = true -> (dec <= W a b)%N) ->
  wstep W W' n s t dec inc -> forall a b, a < n -> b < n -> W' a b = bump T s t dec inc a b.
Proof.
  intros E D S a b Ha Hb. specialize (S a b Ha Hb). specialize (D a b Ha Hb). rewrite (E a b Ha Hb) in *. unfold bump.
  destruct (((a =? s) && (b =? t)) || ((a =? t) && (b =? s))); [specialize (D eq_refl); lia|lia].
Qed.

Lemma slot_le_wt R v e t w r a b : valid_rows R -> slot R v e = Some (t, w, r) ->
  ((a =? v) && (b =? t)) || ((a =? t) && (b =? v)) = true -> (w <= wt (adj R) a b)%N.
Proof.
  intros V S H.
  assert (X : forall a b e r, slot R a e = Some (b, w, r) -> (w <= wt (adj R) a b)%N).
  { intros a' b' e' r' S'. rewrite wt_ls. unfold ls.
    pose proof (bsum_In_le (rl R a') (fun i => val nodead R (fw b') a' i) e' ltac:(apply (slot_lt _ _ _ _ S'))) as Q. cbn beta in Q.
    assert (VE : val nodead R (fw b') a' e' = w) by (unfold val, nodead; rewrite S'; unfold fw; rewrite Nat.eqb_refl; reflexivity).
    rewrite VE in Q. exact Q. }
  apply orb_true_iff in H. rewrite !andb_true_iff, !Nat.eqb_eq in H. destruct H as [[-> ->]|[-> ->]]; [eauto|].
  destruct (V v e t w r S) as [_ [_ S2]]. eapply X. exact S2.
Qed.

Lemma op_step n G T o : mvalid G -> m_n G = n -> (forall a b, a < n -> b < n -> wt (adj (m_rows G)) a b = T a b) -> in_range n G o ->
  exists G', run_op G o = Some G' /\ mvalid G' /\ m_n G' = n /\ m_pos G' = m_pos G /\ m_cont G' = m_cont G /\
    (forall a b, a < n -> b < n -> wt (adj (m_rows G')) a b = table_op G o T a b).
Proof.
  intros MV N E IR. pose proof MV as [V _].
  assert (NEW : forall s t w, s < t -> t < n -> exists G', m_new_edge G s t w = Some G' /\ mvalid G' /\ m_n G' = n /\ m_pos G' = m_pos G /\ m_cont G' = m_cont G /\
    (forall a b, a < n -> b < n -> wt (adj (m_rows G')) a b = bump T s t 0 w a b)).
  { intros s t w Hst Ht. destruct (new_edge_ok G s t w MV Hst ltac:(lia)) as (G' & R & MV' & N' & WS & P & C). exists G'.
    split; [auto|]. split; [auto|]. split; [congruence|]. split; [auto|]. split; [auto|]. rewrite N in WS.
    apply wstep_bump with (W := wt (adj (m_rows G))); auto. intros; lia. }
  assert (SAME : exists G', Some G = Some G' /\ mvalid G' /\ m_n G' = n /\ m_pos G' = m_pos G /\ m_cont G' = m_cont G /\
    (forall a b, a < n -> b < n -> wt (adj (m_rows G')) a b = T a b)).
  { exists G. repeat (split; [auto|]). auto. }
  assert (RD : forall v e, e < length (nth v (m_rows G) []) -> exists t w r, slot (m_rows G) v e = Some (t, w, r) /\
    nth_error (nth v (adj (m_rows G)) []) e = Some (t, w)).
  { intros v e He. destruct (slot_some (m_rows G) v e He) as (t & w & r & S). exists t, w, r. split; [auto|].
    rewrite adj_nth, nth_error_map. unfold slot in S. unfold half in *. rewrite S. reflexivity. }
  destruct o as [s t w|s t w|v e w|v e]; cbn [run_op in_range table_op] in *.
  - unfold new_edge_order. destruct IR as [Hs Ht]. destruct (Nat.ltb_spec s t).
    + destruct (Nat.eqb_spec s t); [lia|]. apply NEW; auto.
    + destruct (Nat.eqb_spec s t) as [->|]; [rewrite Nat.ltb_irrefl; exact SAME|]. destruct (Nat.ltb_spec t s); [|lia].
      destruct (NEW t s w ltac:(lia) Hs) as (G' & R & A & B & C & D & F). exists G'. repeat (split; [auto|]).
      intros a b Ha Hb. rewrite F by auto. unfold bump. rewrite orb_comm. reflexivity.
  - destruct IR as [Hs Ht]. destruct (Nat.ltb_spec s t) as [L|L].
    + apply NEW; auto.
    + unfold m_new_edge. destruct (Nat.ltb_spec s t); [lia|]. exact SAME.
  - destruct IR as [Hv He]. destruct (RD v e He) as (t & w0 & r & S & RE). rewrite RE.
    destruct (set_weight_ok G v e t w0 r w MV S) as (G' & R & MV' & N' & WS & P & C). exists G'.
    split; [auto|]. split; [auto|]. split; [congruence|]. split; [auto|]. split; [auto|]. rewrite N in WS.
    apply wstep_bump with (W := wt (adj (m_rows G))); auto. intros a b _ _. apply (slot_le_wt _ v e t w0 r); auto.
  - destruct IR as [Hv He]. destruct (RD v e He) as (t & w0 & r & S & RE). rewrite RE.
    destruct (delete_edge_ok G v e t w0 r MV S) as (G' & R & MV' & N' & WS & P & C). exists G'.
    split; [auto|]. split; [auto|]. split; [congruence|]. split; [auto|]. split; [auto|]. rewrite N in WS.
    apply wstep_bump with (W := wt (adj (m_rows G))); auto. intros a b _ _. apply (slot_le_wt _ v e t w0 r); auto.
Qed.

Lemma reaches_ok n G T : reaches n G T -> mvalid G /\ m_n G = n /\
  m_pos G = m_pos (start_construction n) /\ m_cont G = m_cont (start_construction n) /\
  (forall a b, a < n -> b < n -> wt (adj (m_rows G)) a b = T a b).
Proof.
  induction 1 as [|G T o G' Hr IH IR E].
  - destruct (start_valid n) as [A [B C]]. auto 6.
  - destruct IH as [MV [N [P [C W]]]]. destruct (op_step n G T o MV N W IR) as (G2 & E2 & A & B & Q1 & Q2 & D).
    rewrite E in E2. injection E2 as <-. split; [auto|]. split; [auto|]. split; [congruence|]. split; [congruence|auto].
Qed.

(** C21: whatever the history of in-range calls, every half edge has its reverse at the recorded index with
    equal weight, cached degrees and edge count are exact, the weights read through the API are the table
    with the same updates, and the next in-range call is executed without error. *)
Theorem C21_edit_history_exact : forall n G T, reaches n G T ->
  valid_rows (m_rows G) /\ degrees_exact (m_rows G) (m_deg G) /\ count_exact (m_rows G) (m_ne G) /\ m_n G = n /\
  (forall a b, a < n -> b < n -> wt (adj (m_rows G)) a b = T a b) /\
  groups_exact n (m_cont G) (m_pos G) /\
  forall o, in_range n G o -> exists G', run_op G o = Some G'.
Proof.
  intros n G T H. destruct (reaches_ok n G T H) as [[V [D C]] [N [P [Q W]]]]. do 5 (split; [auto|]). split.
  - rewrite P, Q. apply start_groups.
  - intros o IR. destruct (op_step n G T o (conj V (conj D C)) N W IR) as (G' & E & _). eauto.
Qed.
Print Assumptions C21_edit_history_exact.

(* rows, degrees and edge count with weights as nat, for the examples *)
Definition show (G : mg) := (map (map (fun h : half => (fst (fst h), N.to_nat (snd (fst h)), snd h))) (m_rows G), map N.to_nat (m_deg G), N.to_nat (m_ne G)).

(* a run: a triangle with a parallel edge, one weight changed, one edge deleted *)
Definition ops_ex : list mop :=
  [NewOrder 2 0 3; NewEdge 0 1 4; NewOrder 1 2 5; NewEdge 0 1 6; NewEdge 2 1 9; SetWeight 1 0 7; DelEdge 0 0].
Fixpoint run_ops (G : mg) (os : list mop) : option mg :=
  match os with [] => Some G | o :: os' => match run_op G o with Some G' => run_ops G' os' | None => None end end.
Example c21_run : option_map (fun G => (show G)) (run_ops (start_construction 3) ops_ex) =
  Some ([[(1, 6, 2); (1, 7, 0)]; [(0, 7, 1); (2, 5, 0); (0, 6, 0)]; [(1, 5, 1)]], [13; 18; 5], 6).
Proof. reflexivity. Qed.
Example c21_reaches : exists G T, reaches 3 G T /\ run_ops (start_construction 3) ops_ex = Some G /\ T 1 0 = 13%N /\ T 1 2 = 5%N /\ T 0 2 = 0%N.
Proof.
  assert (X : forall os G T, reaches 3 G T -> (fix ok os G := match os with [] => true | o :: os' =>
     match o with NewOrder s t _ | NewEdge s t _ => (s <? 3) && (t <? 3) | SetWeight v e _ | DelEdge v e => (v <? 3) && (e <? length (nth v (m_rows G) [])) end &&
     match run_op G o with Some G' => ok os' G' | None => false end end) os G = true ->
     exists G' T', reaches 3 G' T' /\ run_ops G os = Some G').
  { induction os as [|o os IH]; intros G T R O; [exists G, T; auto|]. apply andb_true_iff in O. destruct O as [O1 O2].
    cbn [run_ops]. destruct (run_op G o) as [G1|] eqn:E; [|discriminate]. apply (IH G1 (table_op G o T)); [|auto].
    apply reach_op; auto. destruct o; cbn; apply andb_true_iff in O1; rewrite !Nat.ltb_lt in O1; auto. }
  destruct (X ops_ex _ _ (reach_start 3) eq_refl) as (G & T & R & E). exists G, T. split; [auto|]. split; [auto|].
  destruct (C21_edit_history_exact 3 G T R) as (_ & _ & _ & _ & W & _).
  rewrite <- !W by lia. pose proof E as E2. vm_compute in E2. injection E2 as <-. vm_compute. auto.
Qed.

(** ** C22: deleteVertex *)
Theorem C22_delete_vertex : forall G v, mvalid G -> v < m_n G -> length (m_part G) = m_n G -> length (m_cut G) = m_n G ->
  let old a := if a =? v then m_n G - 1 else a in
  exists G', m_delete_vertex G v = Some G' /\
    valid_rows (m_rows G') /\ degrees_exact (m_rows G') (m_deg G') /\ count_exact (m_rows G') (m_ne G') /\
    m_n G' = m_n G - 1 /\
    (forall a b, a < m_n G' -> b < m_n G' -> wt (adj (m_rows G')) a b = wt (adj (m_rows G)) (old a) (old b)) /\
    (forall a, a < m_n G' -> nth a (m_part G') 0 = nth (old a) (m_part G) 0 /\ nth a (m_cut G') false = nth (old a) (m_cut G) false) /\
    (groups_exact (m_n G) (m_cont G) (m_pos G) ->
       groups_exact (m_n G') (m_cont G') (m_pos G') /\
       forall x a, x < length (m_pos G) -> a < m_n G' -> (nth x (m_pos G') 0 = a <-> nth x (m_pos G) 0 = old a)).
Proof.
  intros G v MV Hv LP LC old. destruct (delete_vertex_ok G v MV Hv LP LC) as (G' & E & [V [D C]] & N & W & PC & GR).
  exists G'. split; [auto|]. split; [auto|]. split; [auto|]. split; [auto|]. split; [auto|]. rewrite N.
  split; [exact W|]. split; [exact PC|]. intro GE. rewrite N in GR. destruct (GR GE) as [GE' [LL PV]]. split; [auto|].
  intros x a Hx Ha. pose proof GE as [_ M]. pose proof GE' as [_ M'].
  assert (OA : old a < m_n G /\ old a <> v) by (unfold old; destruct (Nat.eqb_spec a v); lia).
  split.
  - intro E'. assert (I : In x (nth a (m_cont G') [])) by (apply M'; auto; split; [congruence|auto]).
    assert (CE : nth a (m_cont G') [] = nth (old a) (m_cont G) []).
    { unfold m_delete_vertex in E. destruct (m_n G <=? v); [discriminate|].
      destruct (delete_incident _ _ _ _ _ _) as [[[r1 d1] n1]|]; [|discriminate].
      destruct (if v <? m_n G - 1 then _ else _) as [r2|]; [|discriminate]. injection E as <-. cbn [m_cont].
      destruct GE as [GL _]. unfold old. destruct (Nat.ltb_spec v (m_n G - 1)).
      - destruct (Nat.eqb_spec a v) as [->|]; [apply nth_upd_eq; lia|apply nth_upd_neq; auto].
      - destruct (Nat.eqb_spec a v); [lia|reflexivity]. }
    rewrite CE in I. apply M in I; tauto.
  - intro E'. rewrite PV; rewrite ?E'; try tauto. unfold old, renb. destruct (Nat.eqb_spec a v).
    + rewrite Nat.eqb_refl. auto.
    + destruct (Nat.eqb_spec a (m_n G - 1)); [lia|auto].
Qed.
Print Assumptions C22_delete_vertex.

Definition mg_of (n : nat) (os : list mop) : mg := match run_ops (start_construction n) os with Some G => G | None => start_construction 0 end.
Definition k4 : mg := mg_of 4 [NewEdge 0 1 1; NewEdge 0 2 2; NewEdge 0 3 3; NewEdge 1 2 4; NewEdge 1 3 5; NewEdge 2 3 6].

(* the hypotheses as a test *)
Lemma run_ops_reaches n os : forall G T, reaches n G T ->
  (fix ok os G := match os with [] => true | o :: os' =>
     match o with NewOrder s t _ | NewEdge s t _ => (s <? n) && (t <? n) | SetWeight v e _ | DelEdge v e => (v <? n) && (e <? length (nth v (m_rows G) [])) end &&
     match run_op G o with Some G' => ok os' G' | None => false end end) os G = true ->
  exists G' T', reaches n G' T' /\ run_ops G os = Some G'.
Proof.
  induction os as [|o os IH]; intros G T R O; [exists G, T; auto|]. apply andb_true_iff in O. destruct O as [O1 O2].
  cbn [run_ops]. destruct (run_op G o) as [G1|] eqn:E; [|discriminate]. apply (IH G1 (table_op G o T)); [|auto].
  apply reach_op; auto. destruct o; cbn; apply andb_true_iff in O1; rewrite !Nat.ltb_lt in O1; auto.
Qed.
Lemma mg_of_valid n os :
  (fix ok os G := match os with [] => true | o :: os' =>
     match o with NewOrder s t _ | NewEdge s t _ => (s <? n) && (t <? n) | SetWeight v e _ | DelEdge v e => (v <? n) && (e <? length (nth v (m_rows G) [])) end &&
     match run_op G o with Some G' => ok os' G' | None => false end end) os (start_construction n) = true ->
  mvalid (mg_of n os) /\ m_n (mg_of n os) = n /\ groups_exact n (m_cont (mg_of n os)) (m_pos (mg_of n os)).
Proof.
  intro O. destruct (run_ops_reaches n os _ _ (reach_start n) O) as (G & T & R & E). unfold mg_of. rewrite E.
  destruct (C21_edit_history_exact n G T R) as (A & B & C & D & _ & F & _). split; [split; auto|auto].
Qed.

Example c22_hyps : mvalid k4 /\ 1 < m_n k4 /\ length (m_part k4) = m_n k4 /\ length (m_cut k4) = m_n k4 /\ groups_exact (m_n k4) (m_cont k4) (m_pos k4).
Proof. destruct (mg_of_valid 4 [NewEdge 0 1 1; NewEdge 0 2 2; NewEdge 0 3 3; NewEdge 1 2 4; NewEdge 1 3 5; NewEdge 2 3 6] eq_refl) as [A [B C]].
  split; [exact A|]. split; [vm_compute; lia|]. split; [reflexivity|]. split; [reflexivity|exact C]. Qed.
Example c22_run : option_map (fun G => (show G, m_pos G)) (m_delete_vertex k4 1) =
  Some ([[(1, 3, 0); (2, 2, 0)]; [(0, 3, 0); (2, 6, 1)]; [(0, 2, 1); (1, 6, 1)]], [5; 9; 8], 6, [0; 3; 2; 1]).
Proof. reflexivity. Qed.

(** ** C23: contractEdge *)

(** Partial: the quantifier of C23 allows parallel edges and any vertex position.  Here the neighbours of
    the larger end are distinct and the larger end is not the last vertex; the two refutations below show
    that both restrictions are needed. *)
Theorem C23_contract_edge_partial : forall G v e t w r, mvalid G -> length (m_part G) = m_n G -> length (m_cut G) = m_n G ->
  nth_error (nth v (m_rows G) []) e = Some (t, w, r) -> Nat.max v t < m_n G - 1 ->
  NoDup (map fst (nth (Nat.max v t) (adj (m_rows G)) [])) ->
  exists G' f, m_contract_edge G v e = Some G' /\
    valid_rows (m_rows G') /\ degrees_exact (m_rows G') (m_deg G') /\ count_exact (m_rows G') (m_ne G') /\
    m_n G' = m_n G - 1 /\ clustering (m_n G) f (m_n G') /\ merges (m_n G) (fun x => x = v \/ x = t) f /\
    contraction_of (m_n G) (wt (adj (m_rows G))) f (m_n G') (wt (adj (m_rows G'))) /\
    (forall S, cutw (m_n G') (wt (adj (m_rows G'))) S = cutw (m_n G) (wt (adj (m_rows G))) (fun x => S (f x))) /\
    (groups_exact (m_n G) (m_cont G) (m_pos G) ->
       groups_exact (m_n G') (m_cont G') (m_pos G') /\ length (m_pos G') = length (m_pos G) /\
       forall x, x < length (m_pos G) -> nth x (m_pos G') 0 = f (nth x (m_pos G) 0)).
Proof.
  intros G v e t w r MV LP LC S HM ND.
  destruct (contract_edge_ok G v e t w r MV LP LC S HM ND) as (G' & f & E & [V [D C]] & N & _ & _ & CL & MG & CT & GR).
  exists G', f. do 8 (split; [auto|]). split; [|auto]. intro A. apply contraction_cut; [apply CL|auto].
Qed.
Print Assumptions C23_contract_edge_partial.

Example c23_hyps : mvalid k4 /\ length (m_part k4) = m_n k4 /\ length (m_cut k4) = m_n k4 /\
  nth_error (nth 2 (m_rows k4) []) 1 = Some (1, 4%N, 1) /\ Nat.max 2 1 < m_n k4 - 1 /\ NoDup (map fst (nth (Nat.max 2 1) (adj (m_rows k4)) [])).
Proof.
  destruct c22_hyps as [A [_ [B [C _]]]]. split; [auto|]. split; [auto|]. split; [auto|]. split; [reflexivity|]. split; [vm_compute; lia|].
  vm_compute. repeat constructor; cbn; intuition discriminate.
Qed.
Example c23_run : option_map (fun G => (show G, m_pos G, m_cont G)) (m_contract_edge k4 2 1) =
  Some ([[(1, 3, 0); (2, 3, 0)]; [(0, 3, 0); (2, 11, 1)]; [(0, 3, 1); (1, 11, 1)]], [6; 14; 14], 6, [0; 1; 1; 2], [[0]; [1; 2]; [3]]).
Proof. reflexivity. Qed.

(** Refuted when the larger end is the last vertex: contractEdge reads vertices[target] after popping it. *)
Theorem C23_last_vertex_refuted : forall G v e t w r, mvalid G -> nth_error (nth v (m_rows G) []) e = Some (t, w, r) ->
  Nat.max v t = m_n G - 1 -> m_contract_edge G v e = None.
Proof.
  intros G v e t w r [V _] S HM. unfold m_contract_edge, slot. unfold half in *. rewrite S. destruct (V v e t w r S) as [Ht [Nt SR]]. unfold half in *.
  destruct (Nat.ltb_spec t v).
  - rewrite SR. destruct (Nat.eqb_spec v (m_n G - 1)); [reflexivity|lia].
  - rewrite S. destruct (Nat.eqb_spec t (m_n G - 1)); [reflexivity|lia].
Qed.
Print Assumptions C23_last_vertex_refuted.
Example c23_last : nth_error (nth 0 (m_rows k4) []) 2 = Some (3, 3%N, 0) /\ Nat.max 0 3 = m_n k4 - 1 /\ m_contract_edge k4 0 2 = None.
Proof. repeat split. Qed.

(** Refuted for parallel edges: contracting one of two parallel edges leaves a loop at the merged vertex,
    which its cached degree counts: 8 although only weight 4 leaves it. *)
Definition par3 : mg := mg_of 3 [NewEdge 0 1 1; NewEdge 0 1 2; NewEdge 1 2 4].
Theorem C23_parallel_edges_refuted : exists G v e t w r G', mvalid G /\ nth_error (nth v (m_rows G) []) e = Some (t, w, r) /\
  Nat.max v t < m_n G - 1 /\ m_contract_edge G v e = Some G' /\ ~ valid_rows (m_rows G') /\
  m_n G' = 2 /\ nth 0 (m_deg G') 0%N = 8%N /\ wt (adj (m_rows G')) 0 1 = 4%N.
Proof.
  exists par3, 0, 0, 1, 1%N, 0. destruct (m_contract_edge par3 0 0) as [G'|] eqn:E; [|vm_compute in E; discriminate].
  exists G'. split; [apply mg_of_valid; reflexivity|]. split; [reflexivity|]. split; [vm_compute; lia|]. split; [reflexivity|].
  vm_compute in E. injection E as <-. split; [|repeat split]. intro V. cbn in V.
  destruct (V 0 1 0 2%N 2 eq_refl) as [_ [X _]]. congruence.
Qed.
Print Assumptions C23_parallel_edges_refuted.

(** ** C24: contractVertexSet, for every iteration order of the hash set (the list vset) *)
Theorem C24_contract_vertex_set : forall G vset, mvalid G -> NoDup vset -> length (m_part G) = m_n G -> length (m_cut G) = m_n G ->
  exists G' f, m_contract_set G vset = Some G' /\
    valid_rows (m_rows G') /\ degrees_exact (m_rows G') (m_deg G') /\ count_exact (m_rows G') (m_ne G') /\
    clustering (m_n G) f (m_n G') /\ merges (m_n G) (fun x => In x vset) f /\
    contraction_of (m_n G) (wt (adj (m_rows G))) f (m_n G') (wt (adj (m_rows G'))) /\
    (forall S, cutw (m_n G') (wt (adj (m_rows G'))) S = cutw (m_n G) (wt (adj (m_rows G))) (fun x => S (f x))) /\
    (groups_exact (m_n G) (m_cont G) (m_pos G) ->
       groups_exact (m_n G') (m_cont G') (m_pos G') /\ length (m_pos G') = length (m_pos G) /\
       forall x, x < length (m_pos G) -> nth x (m_pos G') 0 = f (nth x (m_pos G) 0)).
Proof.
  intros G vset MV ND LP LC. destruct (contract_set_ok G vset MV ND LP LC) as (G' & f & E & [V [D C]] & _ & _ & CL & MG & CT & GR).
  exists G', f. do 7 (split; [auto|]). split; [|auto]. intro A. apply contraction_cut; [apply CL|auto].
Qed.
Print Assumptions C24_contract_vertex_set.

(* K5 with a parallel edge *)
Definition k5 : mg := mg_of 5 [NewEdge 0 1 1; NewEdge 0 2 2; NewEdge 0 3 3; NewEdge 0 4 4; NewEdge 1 2 5; NewEdge 1 3 6; NewEdge 1 4 7;
                               NewEdge 2 3 8; NewEdge 2 4 9; NewEdge 3 4 10; NewEdge 1 4 1].
Example c24_hyps : mvalid k5 /\ NoDup [4; 1; 2] /\ length (m_part k5) = m_n k5 /\ length (m_cut k5) = m_n k5 /\ groups_exact (m_n k5) (m_cont k5) (m_pos k5).
Proof.
  destruct (mg_of_valid 5 [NewEdge 0 1 1; NewEdge 0 2 2; NewEdge 0 3 3; NewEdge 0 4 4; NewEdge 1 2 5; NewEdge 1 3 6; NewEdge 1 4 7;
                               NewEdge 2 3 8; NewEdge 2 4 9; NewEdge 3 4 10; NewEdge 1 4 1] eq_refl) as [A [B C]].
  split; [exact A|]. split; [repeat constructor; cbn; intuition discriminate|]. split; [reflexivity|]. split; [reflexivity|exact C].
Qed.
Example c24_run : option_map (fun G => (show G, m_pos G, m_cont G)) (m_contract_set k5 [4; 1; 2]) =
  Some ([[(1, 7, 0); (2, 3, 0)]; [(0, 7, 0); (2, 24, 1)]; [(0, 3, 1); (1, 24, 1)]], [10; 31; 27], 6, [0; 1; 1; 2; 1], [[0]; [1; 4; 2]; [3]]).
Proof. reflexivity. Qed.
