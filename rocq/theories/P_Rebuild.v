(* P_Rebuild.v - proofs about decrementalRebuild, part 1: a maximum flow as it is stored in the edges, its components. *)
From Coq Require Import Relations.
From Verif Require Import SpecCut SpecDyn SpecFlow LibZ P_Mutable M_PushRelabel P_Flow P_Flow2 P_Flow6 P_MutableIO P_Cut Prop_LimFlow SpecHop M_Scc P_Scc Prop_Scc Prop_StCactus P_FlowChain M_Rebuild.

(** the edges E carry the rows R and, for the problem fpid, the flow F *)
Definition stores (fpid : nat) (E : list (list fedge)) (R : list (list half)) (F : nat -> nat -> Z) : Prop :=
  length E = length R /\ (forall v, length (nth v E []) = length (nth v R [])) /\
  forall v e t w r, hedge R v e t w r -> exists x, nth_error (nth v E []) e = Some x /\ fe_t x = t /\ fe_w x = w /\ edge_flow (Some fpid) x = F v e.

Definition flows_of (fpid : nat) (E : list (list fedge)) : list (list Z) := map (map (edge_flow (Some fpid))) E.
Lemma flows_at fpid E R F : stores fpid E R F -> forall v e t w r, slot R v e = Some (t, w, r) -> eflow (flows_of fpid E) v e = F v e.
Proof.
  intros (L & LR & H) v e t w r S. destruct (H v e t w r S) as (x & X & _ & _ & <-). unfold eflow, flows_of. rewrite (nth_map_nil (map (edge_flow (Some fpid)))) by reflexivity.
  apply nth_error_nth. apply map_nth_error. exact X.
Qed.

Lemma phi_anti R fl : valid_rows R -> (forall v e t w r, slot R v e = Some (t, w, r) -> eflow fl t r = (- eflow fl v e)%Z) ->
  forall u v, Phi R fl u v = (- Phi R fl v u)%Z.
Proof.
  intros V A u v. unfold Phi.
  assert (X : forall u v, zsum (rl R u) (fun e => match slot R u e with Some (t, _, _) => if t =? v then eflow fl u e else 0%Z | None => 0%Z end) =
    zsum (rl R u) (fun e => zsum (rl R v) (fun r' => match slot R u e with Some (t, _, r) => if (t =? v) && (r =? r') then eflow fl u e else 0%Z | None => 0%Z end))).
  { clear u v. intros u v. apply zsum_ext. intros e He. destruct (slot R u e) as [[[t w] r]|] eqn:S.
    - destruct (Nat.eqb_spec t v) as [->|N]; cbn [andb].
      + destruct (V u e v w r S) as (Hv & _ & S2). destruct (slot_lt _ _ _ _ S2) as [_ Hr].
        transitivity (zsum (rl R v) (fun i => if i =? r then eflow fl u e else 0%Z)); [symmetry; apply (zsum_single (rl R v) r (fun _ => eflow fl u e) Hr)|].
        apply zsum_ext. intros i _. rewrite Nat.eqb_sym. reflexivity.
      + symmetry. apply zsum_zero. reflexivity.
    - symmetry. apply zsum_zero. reflexivity. }
  rewrite (X u v), (X v u), zsum_swap, <- zsum_opp. apply zsum_ext. intros r Hr. rewrite <- zsum_opp. apply zsum_ext. intros e He.
  assert (EQ : forall a b i j, i < rl R a -> j < rl R b -> forall t w r, slot R a i = Some (t, w, r) -> (t =? b) && (r =? j) = true -> slot R b j = Some (a, w, i)).
  { intros a b i j _ _ t w r' S Q. apply andb_true_iff in Q. destruct Q as [Q1 Q2]. apply Nat.eqb_eq in Q1, Q2. subst. apply (V a i b w j S). }
  destruct (slot R u e) as [[[t w] r1]|] eqn:S1.
  - destruct ((t =? v) && (r1 =? r)) eqn:Q.
    + pose proof (EQ u v e r He Hr t w r1 S1 Q) as S2. rewrite S2, !Nat.eqb_refl. cbn [andb]. rewrite (A v r u w e S2). reflexivity.
    + destruct (slot R v r) as [[[t2 w2] r2]|] eqn:S2; [|reflexivity]. destruct ((t2 =? u) && (r2 =? e)) eqn:Q2; [|reflexivity].
      pose proof (EQ v u r e Hr He t2 w2 r2 S2 Q2) as S3. rewrite S1 in S3. injection S3 as -> -> ->. rewrite !Nat.eqb_refl in Q. discriminate Q.
  - destruct (slot R v r) as [[[t2 w2] r2]|] eqn:S2; [|reflexivity]. destruct ((t2 =? u) && (r2 =? e)) eqn:Q2; [|reflexivity].
    pose proof (EQ v u r e Hr He t2 w2 r2 S2 Q2) as S3. rewrite S1 in S3. discriminate S3.
Qed.

Section Flow.
Context (R : list (list half)) (V : valid_rows R) (s t : nat) (Hs : s < length R) (Ht : t < length R) (Nst : s <> t).
Context (F : nat -> nat -> Z) (c : N) (MF : max_flow R [s; t] s F (Z.of_N c)) (fpid : nat) (E : list (list fedge)) (ST : stores fpid E R F).
Let fl := flows_of fpid E.
Let n := length R.

Lemma st_cap v e u w r : slot R v e = Some (u, w, r) -> (eflow fl v e <= Z.of_N w)%Z.
Proof. intro S. unfold fl. rewrite (flows_at fpid E R F ST v e u w r S). apply (mf_capacity _ _ _ _ _ MF v e u w r S). Qed.
Lemma st_anti v e u w r : slot R v e = Some (u, w, r) -> eflow fl u r = (- eflow fl v e)%Z.
Proof.
  intro S. destruct (V v e u w r S) as (_ & _ & S2). unfold fl. rewrite (flows_at fpid E R F ST _ _ _ _ _ S), (flows_at fpid E R F ST _ _ _ _ _ S2). apply (mf_antisymmetric _ _ _ _ _ MF v e u w r S).
Qed.
Lemma st_sum v : zsum n (Phi R fl v) = (- inflow R F v)%Z.
Proof.
  unfold inflow. fold (rl R v). fold (zsum (rl R v) (fun e => match nth_error (nth v R []) e with Some (t, _, r) => F t r | None => 0%Z end)).
  assert (E1 : zsum n (Phi R fl v) = zsum (rl R v) (fun e => eflow fl v e)).
  { unfold Phi. rewrite zsum_swap. apply zsum_ext. intros e He. destruct (slot_some R v e He) as (u & w & r & S). rewrite S.
    destruct (V v e u w r S) as [Hu _]. transitivity (zsum n (fun i => if i =? u then eflow fl v e else 0%Z)); [|apply (zsum_single n u (fun _ => eflow fl v e) Hu)].
    apply zsum_ext. intros x _. rewrite Nat.eqb_sym. reflexivity. }
  rewrite E1, <- zsum_opp. apply zsum_ext. intros e He. destruct (slot_some R v e He) as (u & w & r & S). fold (slot R v e). rewrite S.
  unfold fl. rewrite (flows_at fpid E R F ST _ _ _ _ _ S). rewrite (mf_antisymmetric _ _ _ _ _ MF v e u w r S). lia.
Qed.
Lemma st_out S : out_flow R fl S = ((if (S s : bool) then Z.of_N c else 0) - (if S t then Z.of_N c else 0))%Z.
Proof.
  set (K := zsum n (Phi R fl s)). set (ex := map (fun v => if v =? t then Z.of_N c else 0%Z) (seq 0 n)).
  assert (NE : forall v, v < n -> nth v ex 0%Z = if v =? t then Z.of_N c else 0%Z).
  { intros v Hv. unfold ex. apply nth_error_nth. rewrite (map_nth_error _ v (seq 0 n) (d := v)); [reflexivity|]. rewrite (nth_error_nth' _ 0) by (rewrite seq_length; auto). rewrite seq_nth by auto. reflexivity. }
  assert (IT : inflow R F t = Z.of_N c). { pose proof (mf_value _ _ _ _ _ MF) as Q. cbn [zs fold_right] in Q. unfold zs in Q. cbn [map fold_right] in Q. rewrite Nat.eqb_refl in Q. destruct (Nat.eqb_spec t s); [congruence|]. lia. }
  assert (FI : finv R s K fl ex).
  { destruct ST as (L1 & L2 & L3). constructor.
    - unfold fl, flows_of. rewrite map_length. auto.
    - intro v. unfold fl, flows_of. rewrite (nth_map_nil (map (edge_flow (Some fpid)))) by reflexivity. rewrite map_length. apply L2.
    - unfold ex. rewrite map_length, seq_length. reflexivity.
    - apply st_cap.
    - apply st_anti.
    - intros u v _ _. apply phi_anti; auto. apply st_anti.
    - intros v Hv. rewrite NE by auto. fold n. destruct (Nat.eqb_spec v s) as [->|Ns]; destruct (Nat.eqb_spec v t) as [->|Nt] || destruct (Nat.eqb_spec s t) as [|_]; try congruence.
      + unfold K. lia.
      + rewrite st_sum, IT. lia.
      + rewrite st_sum, (mf_conserved _ _ _ _ _ MF v Hv); [lia|]. intros [Q|[Q|[]]]; congruence.
    - intros v Hv. rewrite NE by auto. destruct (v =? t); lia. }
  assert (SX : forall S : nat -> bool, zsum n (fun u => if S u then nth u ex 0%Z else 0%Z) = if S t then Z.of_N c else 0%Z).
  { clear S. intro S. rewrite <- (zsum_single n t (fun u => if S u then Z.of_N c else 0%Z) Ht). apply zsum_ext. intros u Hu. rewrite NE by auto. destruct (u =? t), (S u); reflexivity. }
  pose proof (excess_sum R s K fl ex S FI Hs) as E1. pose proof (excess_sum R s K fl ex (fun _ => true) FI Hs) as E2. fold n in E1, E2. rewrite SX in E1, E2. cbn beta in E2.
  assert (Z0 : out_flow R fl (fun _ => true) = 0%Z) by (unfold out_flow; apply zsum_zero; intros; apply zsum_zero; reflexivity).
  rewrite Z0 in E2. destruct (S s); lia.
Qed.

Lemma st_redge u v : In (Some v) (nth u (res_rows (Some fpid) E) []) <-> redge R fl u v.
Proof.
  unfold res_rows. rewrite (nth_map_nil (map (fun e => if (edge_flow (Some fpid) e =? Z.of_N (fe_w e))%Z then None else Some (fe_t e)))) by reflexivity. rewrite in_map_iff. destruct ST as (L1 & L2 & L3). split.
  - intros (x & Q & I). apply In_nth_error in I. destruct I as (e & I). assert (He : e < length (nth u R [])) by (rewrite <- L2; apply nth_error_Some; congruence).
    destruct (slot_some R u e He) as (t' & w & r & S). destruct (L3 u e t' w r S) as (x' & X & X1 & X2 & X3). rewrite I in X. injection X as <-.
    destruct (Z.eqb_spec (edge_flow (Some fpid) x) (Z.of_N (fe_w x))); [discriminate Q|]. injection Q as Q. exists e, w, r. split; [congruence|]. unfold fl. rewrite (flows_at fpid E R F ST _ _ _ _ _ S). congruence.
  - intros (e & w & r & S & Ne). destruct (L3 u e v w r S) as (x & X & X1 & X2 & X3). exists x. split; [|eapply nth_error_In; eauto].
    unfold fl in Ne. rewrite (flows_at fpid E R F ST _ _ _ _ _ S) in Ne. destruct (Z.eqb_spec (edge_flow (Some fpid) x) (Z.of_N (fe_w x))); congruence.
Qed.

(** the components in the order of their numbers *)
Lemma components_ok : exists o, strong_components scc_new (res_rows (Some fpid) E) = Some o /\ length (comp_vector o) = n /\
  let f := fun u => nth u (comp_vector o) 0 in
  clustering n f (s_cc o) /\ (forall u v, redge R fl u v -> f v <= f u) /\ (forall u v, u < n -> v < n -> f u = f v -> clos_refl_trans nat (redge R fl) u v).
Proof.
  set (rows := res_rows (Some fpid) E). assert (Lr : length rows = n) by (unfold rows, res_rows; rewrite map_length; apply ST).
  assert (Bd : forall u v, In (Some v) (nth u rows []) -> u < n /\ v < n).
  { intros u v I. apply st_redge in I. destruct I as (e & w & r & S & _). destruct (slot_lt _ _ _ _ S) as [A _]. destruct (V u e v w r S) as [B _]. auto. }
  destruct (scc_ok rows (fun u v H => eq_ind_r (fun k => v < k) (proj2 (Bd u v H)) Lr) scc_new eq_refl eq_refl eq_refl) as (o & Eo & I & _ & _ & _ & Fin).
  exists o. split; [exact Eo|]. assert (Lc : length (s_comp o) = n) by (rewrite (i_lc _ _ I); exact Lr). split; [unfold comp_vector; rewrite map_length; exact Lc|].
  assert (Cv : forall u, u < n -> exists c, nth u (s_comp o) None = Some c /\ nth u (comp_vector o) 0 = c).
  { intros u Hu. specialize (Fin u ltac:(lia)). unfold fin in Fin. destruct (nth u (s_comp o) None) as [d|] eqn:Q; [|congruence]. exists d. split; [reflexivity|].
    unfold comp_vector. change 0 with ((fun c : option nat => match c with Some c => c | None => 0 end) None). rewrite map_nth, Q. reflexivity. }
  assert (Clo : forall a b, sreach rows a b -> clos_refl_trans nat (redge R fl) a b).
  { intros a b X. induction X as [a b H|a|a b d _ IH1 _ IH2]; [apply rt_step, st_redge; exact H|apply rt_refl|eapply rt_trans; eauto]. }
  cbv zeta. split; [split|split].
  - intros u Hu. destruct (Cv u Hu) as (d & A & ->). apply (i_cc _ _ I u d A).
  - intros p Hp. destruct (i_ne _ _ I p Hp) as (u & Q). assert (Hu : u < n). { destruct (Nat.lt_ge_cases u n); [auto|]. rewrite nth_overflow in Q by lia. discriminate Q. }
    exists u. split; [auto|]. destruct (Cv u Hu) as (d & A & ->). congruence.
  - intros u v H. apply st_redge in H. fold rows in H. destruct (Bd u v H) as [Hu Hv]. destruct (Cv u Hu) as (d & A & ->), (Cv v Hv) as (d' & A' & ->). apply (i_top _ _ I u v d d' A A' H).
  - intros u v Hu Hv Q. destruct (Cv u Hu) as (d & A & B), (Cv v Hv) as (d' & A' & B'). assert (X : nth u (s_comp o) None = nth v (s_comp o) None) by congruence.
    apply (i_comp _ _ I) in X; [|apply Fin; lia|apply Fin; lia]. destruct X as [X _]. apply Clo. exact X.
Qed.

(** s does not reach t *)
Lemma st_apart (f : nat -> nat) : (forall u v, u < n -> v < n -> f u = f v -> clos_refl_trans nat (redge R fl) u v) -> f s <> f t.
Proof.
  intros Same Q. destruct (mf_cut _ _ _ _ _ MF) as (S & c' & ((Ss & St) & Ec & _) & Ex). apply N2Z.inj in Ex. subst c'.
  assert (T0 : S t = false) by (apply St; [right; left; auto|auto]).
  assert (C : closed R fl S). { apply (tight_closed R V fl (Z.of_N c) s t Hs Ht Nst st_cap st_out). rewrite st_out, Ss, T0, <- Ex. lia. }
  pose proof (closed_reach R fl S s t C (Same s t Hs Ht Q) Ss). congruence.
Qed.
End Flow.
