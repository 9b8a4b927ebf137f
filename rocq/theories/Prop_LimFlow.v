(* Prop_LimFlow.v - property C73: the push-relabel that stops at a limit returns the limit only when no smaller cut exists,
   and otherwise a maximum flow, which is left in the graph. *)
From Verif Require Import SpecFlow SpecDyn P_Mutable P_MutableIO P_Cut M_PushRelabel P_Flow P_Flow2 P_Flow3 P_Flow4 P_Flow5 P_Flow6 Prop_Flow Prop_Mutable M_LimFlow P_LimFlow P_LimFlow2.

(** F is a flow of value x from src to the other terminals, and a cut of weight x shows that there is none of larger value *)
Record max_flow (R : list (list half)) (ts : list nat) (src : nat) (F : nat -> nat -> Z) (x : Z) : Prop := {
  mf_antisymmetric : forall v e t w r, hedge R v e t w r -> F t r = (- F v e)%Z;
  mf_capacity : forall v e t w r, hedge R v e t w r -> (F v e <= Z.of_N w)%Z;
  mf_conserved : forall v, v < length R -> ~ In v ts -> inflow R F v = 0%Z;
  mf_value : zs ts (fun t => if Nat.eqb t src then 0%Z else inflow R F t) = x;
  mf_cut : exists S c, min_isolating (length R) (wt (adj R)) ts src S c /\ x = Z.of_N c }.

Lemma final_max_flow R ts src K s l : valid_rows R -> (forall t, In t ts -> t < length R) -> In src ts -> NoDup ts ->
  inv R ts src K s (length R) -> p_q s = [] ->
  (total_flow ts src s = Z.of_N (cutw (length R) (wt (adj R)) (mem l))) -> In src l -> (forall t, In t ts -> t <> src -> ~ In t l) ->
  (forall S, S src = true -> (forall t, In t ts -> t <> src -> S t = false) -> (total_flow ts src s <= Z.of_N (cutw (length R) (wt (adj R)) S))%Z) ->
  max_flow R ts src (fun v e => eflow (p_fl s) v e) (total_flow ts src s).
Proof.
  intros V Ht Is Nd [F L Q LI] Eq Ev Il Nl Low. pose proof (finv_preflow R src K s V F L) as PF. constructor.
  - apply (pf_antisymmetric _ _ _ _ _ PF).
  - apply (pf_capacity _ _ _ _ _ PF).
  - intros v Hv Nv. assert (v <> src) by congruence. change (inflow R (flow_of s) v = 0%Z). rewrite <- (pf_excess _ _ _ _ _ PF v Hv H). unfold excess_of.
    pose proof (f_pos _ _ _ _ _ F v Hv). destruct (Z.eq_dec (nth v (p_ex s) 0%Z) 0) as [|N]; [auto|].
    assert (In v (p_q s)); [|rewrite Eq in *; contradiction]. apply (q_ex _ _ _ _ _ _ Q); auto; lia.
  - rewrite (total_flow_sum R ts src Ht s). apply zs_ext. intros t It. destruct (Nat.eqb_spec t src) as [|Nt]; [auto|].
    symmetry. apply (pf_excess _ _ _ _ _ PF t (Ht t It) Nt).
  - exists (mem l), (cutw (length R) (wt (adj R)) (mem l)). split; [|auto]. split; [split|split].
    + apply mem_In. auto.
    + intros t It Nt. destruct (mem l t) eqn:E; [|auto]. apply mem_In in E. destruct (Nl t It Nt E).
    + reflexivity.
    + intros S' [A B]. specialize (Low S' A B). lia.
Qed.

(** C73: for every depth up to the number of vertices, every choice of the next vertex, all moments of the global relabelings
    and every limit, the call ends, after a number of steps that does not depend on the limit.  Either the value is the limit and no isolating cut is below the limit, or the flow in the
    graph is a maximum flow of that value *)
Theorem C73_limited_flow : forall R ts D pick gl i src,
  valid_rows R -> (forall t, In t ts -> t < length R) -> NoDup ts -> 2 <= length ts -> nth_error ts i = Some src -> D <= length R ->
  (forall k q, q <> [] -> In (pick k q) q) ->
  exists fuel, forall limit, exists x fl, (forall fuel', fuel <= fuel' -> lim_solve D fuel' pick gl limit R ts i = Some (x, fl)) /\
    ((x = limit /\ forall S, isolating ts src S -> (limit <= Z.of_N (cutw (length R) (wt (adj R)) S))%Z) \/
     max_flow R ts src (fun v e => nth e (nth v fl []) 0%Z) x) /\
    ((x < limit)%Z -> max_flow R ts src (fun v e => nth e (nth v fl []) 0%Z) x) /\
    ((limit <= x)%Z -> forall S, isolating ts src S -> (limit <= Z.of_N (cutw (length R) (wt (adj R)) S))%Z).
Proof.
  intros R ts D pick gl i src V Ht Nd L2 Ei HD Pk.
  destruct (lim_solve_all R ts V Ht Nd D pick gl i src HD L2 Ei Pk) as (fuel & HA). exists fuel. intro limit. destruct (HA limit) as (x & fl & Run & H). exists x, fl. split; [exact Run|].
  assert (G : (x = limit /\ forall S, isolating ts src S -> (limit <= Z.of_N (cutw (length R) (wt (adj R)) S))%Z) \/ max_flow R ts src (fun v e => nth e (nth v fl []) 0%Z) x).
  { destruct H as [[E H]|(K & s & l & I & Q & -> & -> & Ss & Ev & Il & Nl & Low)].
    - left. split; [auto|]. intros S [A B]. auto.
    - right. apply (final_max_flow R ts src K s l V Ht (nth_error_In _ _ Ei) Nd I Q Ev Il Nl Low). }
  split; [exact G|]. split.
  - intro Lt. destruct G as [[E _]|G]; [lia|exact G].
  - intros Ge S IS. destruct G as [[_ G]|[_ _ _ _ (S0 & c & (_ & _ & M) & E)]]; [auto|]. specialize (M S IS). lia.
Qed.
Print Assumptions C73_limited_flow.

(** the answer for two terminals as dynamic_mincut reads it: below the limit iff some cut between them is below the limit, and
    then the weight of a smallest one *)
Corollary C73_two_terminals : forall R s t D pick gl,
  valid_rows R -> s < length R -> t < length R -> s <> t -> D <= length R -> (forall k q, q <> [] -> In (pick k q) q) ->
  exists fuel, forall limit, exists x fl, (forall fuel', fuel <= fuel' -> lim_solve D fuel' pick gl limit R [s; t] 0 = Some (x, fl)) /\
    if (x <? limit)%Z then max_flow R [s; t] s (fun v e => nth e (nth v fl []) 0%Z) x /\ exists c, x = Z.of_N c /\ is_stcut (length R) (wt (adj R)) s t c
    else forall S, S s <> S t -> (limit <= Z.of_N (cutw (length R) (wt (adj R)) S))%Z.
Proof.
  intros R s t D pick gl V Hs Ht Ns HD Pk.
  destruct (C73_limited_flow R [s; t] D pick gl 0 s V) as (fuel & HA); auto.
  { intros y [<-|[<-|[]]]; auto. } { constructor; [intros [Q|[]]; auto|]. constructor; [intros []|constructor]. }
  exists fuel. intro limit. destruct (HA limit) as (x & fl & Run & _ & A & B). exists x, fl. split; [exact Run|].
  assert (IS : forall S : nat -> bool, S s <> S t -> exists S', isolating [s; t] s S' /\ cutw (length R) (wt (adj R)) S' = cutw (length R) (wt (adj R)) S).
  { intros S D0. destruct (S s) eqn:E.
    - exists S. split; [|auto]. split; [auto|]. intros y [<-|[<-|[]]] Ny; [contradiction|]. destruct (S t); congruence.
    - exists (fun v => negb (S v)). split; [split|].
      + rewrite E. reflexivity.
      + intros y [<-|[<-|[]]] Ny; [contradiction|]. destruct (S t); [reflexivity|congruence].
      + apply cutw_compl. apply valid_symm. exact V. }
  destruct (Z.ltb_spec x limit) as [L|L].
  - split; [exact (A L)|]. destruct (mf_cut _ _ _ _ _ (A L)) as (S0 & c & (I0 & E0 & M) & E). exists c. split; [exact E|]. split.
    + exists S0. destruct I0 as [I1 I2]. split; [|auto]. rewrite I1, (I2 t); [discriminate|right; left; auto|auto].
    + intros S D0. destruct (IS S D0) as (S' & I' & <-). apply M. exact I'.
  - intros S D0. destruct (IS S D0) as (S' & I' & <-). apply B; auto.
Qed.
Print Assumptions C73_two_terminals.

(** ** Concrete cases *)
Definition lim_ops : list mop := [NewOrder 0 1 4; NewOrder 0 2 3; NewOrder 1 2 2; NewOrder 1 3 1; NewOrder 2 3 3; NewOrder 3 4 7; NewOrder 2 5 1; NewOrder 5 6 2; NewOrder 5 4 4].
Definition lim_rows : list (list half) := m_rows (mg_of 7 lim_ops).
Example c73_hyps : valid_rows lim_rows /\ length lim_rows = 7 /\ 0 < length lim_rows /\ 4 < length lim_rows /\ (1 <= length lim_rows).
Proof. split; [apply (proj1 (mg_of_valid 7 lim_ops eq_refl))|]. assert (L : length lim_rows = 7) by (vm_compute; reflexivity). rewrite L. lia. Qed.
(** the minimum cut between 0 and 4 is 5: below the limit it is found, at the limit and above it the limit is returned *)
Example c73_value : option_map fst (lim_solve 1 100 first_of (fun _ => false) 6 lim_rows [0; 4] 0) = Some 5%Z. Proof. vm_compute. reflexivity. Qed.
Example c73_depth0 : option_map fst (lim_solve 0 100 first_of (fun k => k =? 3) 9 lim_rows [0; 4] 0) = Some 5%Z. Proof. vm_compute. reflexivity. Qed.
Example c73_deep : option_map fst (lim_solve 5 100 (fun _ q => last q 0) (fun _ => false) 6 lim_rows [0; 4] 1) = Some 5%Z. Proof. vm_compute. reflexivity. Qed.
Example c73_stopped : lim_solve 1 100 first_of (fun _ => false) 3 lim_rows [0; 4] 0 =
  Some (3, [[4; 3]; [-4; 0; 1]; [-3; 0; 3; 0]; [-1; -3; 4]; [-4; 0]; [0; 0; 0]; [0]])%Z. Proof. vm_compute. reflexivity. Qed.
(** equal to the limit: the flow is complete nevertheless *)
Example c73_equal : lim_solve 1 100 first_of (fun _ => false) 5 lim_rows [0; 4] 0 =
  Some (5, [[4; 3]; [-4; 2; 1]; [-3; -2; 3; 1]; [-1; -3; 4]; [-4; -1]; [-1; 0; 1]; [0]])%Z. Proof. vm_compute. reflexivity. Qed.
(** the flag is read only after a discharge: a value above the limit is possible *)
Definition lim_two : list (list half) := m_rows (mg_of 2 [NewOrder 0 1 5]).
Example c73_above : lim_solve 1 100 first_of (fun _ => false) 3 lim_two [0; 1] 0 = Some (5, [[5]; [-5]])%Z. Proof. vm_compute. reflexivity. Qed.
(** a depth of 2n - 1 or more writes behind the end of m_count: on a graph of two vertices the option --depth 3 is enough *)
Example c73_too_deep : lim_solve 3 100 first_of (fun _ => false) 3 lim_two [0; 1] 0 = None /\ lim_solve 2 100 first_of (fun _ => false) 3 lim_two [0; 1] 0 <> None.
Proof. split; [vm_compute; reflexivity|intro H; vm_compute in H; discriminate H]. Qed.
