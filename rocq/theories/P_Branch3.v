(* P_Branch3.v - the branching vertex, and single branching. *)
From Coq Require Import Permutation.
From Verif Require Import SpecRel P_UnionFind P_Cut P_Mutable P_Mutable4 P_Mutable7 P_MutableIO P_Multi P_Kernel P_KernelC P_Kernel3 P_Kernel5 P_ContractStd SpecMutable P_MultiCheck.
From Verif Require Export P_Branch2.

(** ** findHeavyVertex *)
Definition hstate (G : mg) (ts : list nat) (st : N * (nat * nat)) : Prop :=
  fst st = 0%N \/ (In (fst (snd st)) ts /\ exists v w r, slot (m_rows G) (fst (snd st)) (snd (snd st)) = Some (v, w, r) /\ nth v (m_deg G) 0%N = fst st).

Lemma heavy_row_ok G ts t : In t ts -> forall row k st, hstate G ts st -> (forall i, nth_error row i = slot (m_rows G) t (k + i)) ->
  hstate G ts (heavy_row row G t k st) /\ (fst st <= fst (heavy_row row G t k st))%N /\
  (forall v, In v (tgts row) -> (nth v (m_deg G) 0 <= fst (heavy_row row G t k st))%N).
Proof.
  intro Ht. induction row as [|[[v w] r] row IH]; intros k st H E; cbn [heavy_row]; [split; [auto|]; split; [lia|intros ? []]|].
  set (st1 := if (fst st <? nth v (m_deg G) 0)%N then _ else _).
  assert (H1 : hstate G ts st1 /\ (fst st <= fst st1)%N /\ (nth v (m_deg G) 0 <= fst st1)%N).
  { unfold st1. destruct (N.ltb_spec (fst st) (nth v (m_deg G) 0%N)).
    - split; [|cbn; lia]. right. cbn [fst snd]. split; [auto|]. exists v, w, r. split; [|auto]. specialize (E 0). rewrite Nat.add_0_r in E. auto.
    - split; [auto|lia]. }
  destruct (IH (S k) st1 (proj1 H1)) as (A & B & C).
  { intro i. specialize (E (S i)). cbn in E. rewrite E. f_equal. lia. }
  split; [auto|]. split; [lia|]. intros u [<-|Hu]; [cbn [fst]; lia|auto].
Qed.

Lemma find_heavy_ok G ts : (exists t v, In t ts /\ In v (tgts (nth t (m_rows G) [])) /\ nth v (m_deg G) 0%N <> 0%N) ->
  exists v w r, In (fst (find_heavy G ts)) ts /\ slot (m_rows G) (fst (find_heavy G ts)) (snd (find_heavy G ts)) = Some (v, w, r) /\
    forall t' v', In t' ts -> In v' (tgts (nth t' (m_rows G) [])) -> (nth v' (m_deg G) 0 <= nth v (m_deg G) 0)%N.
Proof.
  intros (t & v & Ht & Hv & Pv). unfold find_heavy.
  assert (X : forall l st, incl l ts -> hstate G ts st -> let st' := fold_left (fun st t => heavy_row (nth t (m_rows G) []) G t 0 st) l st in
    hstate G ts st' /\ (fst st <= fst st')%N /\ (forall t' v', In t' l -> In v' (tgts (nth t' (m_rows G) [])) -> (nth v' (m_deg G) 0 <= fst st')%N)).
  { induction l as [|a l IH]; intros st I H; cbn [fold_left]; cbn zeta; [split; [auto|]; split; [lia|intros ? ? []]|].
    destruct (heavy_row_ok G ts a (I a (or_introl eq_refl)) (nth a (m_rows G) []) 0 st H ltac:(reflexivity)) as (A & B & C).
    destruct (IH _ (fun x Hx => I x (or_intror Hx)) A) as (A' & B' & C'). split; [auto|]. split; [lia|].
    intros t' v' [<-|Hl] Hv'; [specialize (C v' Hv'); lia|eauto]. }
  destruct (X ts (0%N, (0, 0)) (fun x H => H) (or_introl eq_refl)) as (A & _ & C). set (st := fold_left _ ts _) in *. pose proof (C t v Ht Hv) as Q.
  destruct A as [A|(A & v0 & w & r & S & D)]; [lia|]. exists v0, w, r. split; [auto|]. split; [auto|]. intros t' v' H1 H2. rewrite D. eauto.
Qed.

(** ** single branching *)
Section Single.
Context (G : mg) (maps : list (list nat)) (origs T : list nat) (b e t : nat) (w : N) (r : nat).
Context (KS : kstate G maps origs T) (S : slot (m_rows G) b e = Some (t, w, r)).
Let n := m_n G.
Let W := wt (adj (m_rows G)).

Theorem single_cut_ok : exists G', single_cut G b e = Some (G', w) /\ kstate G' maps origs T /\ m_n G' = n /\ (simple (m_rows G) -> simple (m_rows G')) /\
  forall f, (mtcost n W f <= cost G' f + w)%N /\ (f b <> f t -> (cost G' f + w)%N = mtcost n W f).
Proof.
  destruct (delete_edge_ok G b e t w r (ks_valid _ _ _ _ KS) S) as (G' & E & V' & N' & WS & P' & C').
  destruct (delete_edge_tgts G b e t w r G' (ks_valid _ _ _ _ KS) S E) as [TG SI].
  unfold single_cut. rewrite S, E. exists G'. split; [auto|].
  assert (Ht : t < n /\ t <> b) by (destruct (proj1 (ks_valid _ _ _ _ KS) b e t w r S) as (A & B & _); auto). destruct Ht as [Ht Nt].
  assert (Hb : b < n) by apply (slot_lt _ _ _ _ S).
  destruct (vdel_one b n (fun x => x =? t) G e t w r (ks_valid _ _ _ _ KS) eq_refl S (Nat.eqb_refl t)) as (G1 & E1 & D & _). rewrite E in E1. injection E1 as <-.
  split; [apply (vdel_kstate _ _ _ _ _ _ _ _ D KS)|]. split; [auto|]. split; [auto|]. intro f. rewrite N'. fold n. split.
  - apply (v_le _ _ _ _ _ _ D f).
  - intro F. apply (v_cost _ _ _ _ _ _ D f). intros x _ Q. apply Nat.eqb_eq in Q. subst x. auto.
Qed.

Theorem single_keep_ok : simple (m_rows G) -> ~ (In b T /\ In t T) -> exists G' ts' w' T', single_keep maps origs G b e = Some (G', ts', w') /\
  kstate G' maps origs T' /\ map fst ts' = live G' T' /\ length T' = length T /\ noterm (m_rows G') T' /\
  (forall f', separates (m_n G') T' f' -> exists f, separates n T f /\ mtcost n W f = (cost G' f' + w')%N) /\
  (forall f, separates n T f -> f b = f t -> exists f', separates (m_n G') T' f' /\ (cost G' f' + w')%N = mtcost n W f).
Proof.
  intros SI NB. destruct (contract_state G b e t w r maps origs T KS SI S NB) as (G2 & g & E & KS2 & UP & DN).
  destruct (finish_terms_ok G2 maps origs (map g T) 0 KS2) as (G3 & ts3 & w3 & E3 & KS3 & L3 & N3 & Z3 & C3). rewrite N.add_0_l in E3.
  unfold single_keep. rewrite E. exists G3, ts3, w3, (map g T). split; [auto|]. split; [auto|]. split; [auto|]. split; [apply map_length|]. split; [auto|]. split.
  - intros f' F'. rewrite N3 in F' |- *. destruct (UP f' F') as (F & Q & C). exists (fun u => f' (g u)). split; [auto|]. fold n W in C. rewrite <- C. symmetry. auto.
  - intros f F Q. destruct (DN f F Q) as (f' & F' & C). exists f'. rewrite N3. split; [auto|]. rewrite C3 by auto. auto.
Qed.

(** the optimum is the better of both branches *)
Theorem single_branch_ok : simple (m_rows G) -> ~ (In b T /\ In t T) -> 0 < length T ->
  exists Gc Gk tsk wk Tk, single_cut G b e = Some (Gc, w) /\ single_keep maps origs G b e = Some (Gk, tsk, wk) /\
    kstate Gc maps origs T /\ kstate Gk maps origs Tk /\ map fst tsk = live Gk Tk /\ length Tk = length T /\
    forall cc ck, mtopt (m_n Gc) (wt (adj (m_rows Gc))) T cc -> mtopt (m_n Gk) (wt (adj (m_rows Gk))) Tk ck -> mtopt n W T (N.min (cc + w) (ck + wk)).
Proof.
  intros SI NB PT. destruct single_cut_ok as (Gc & Ec & Kc & Nc & _ & Cc). destruct (single_keep_ok SI NB) as (Gk & tsk & wk & Tk & Ek & Kk & Lk & LL & _ & U & D).
  exists Gc, Gk, tsk, wk, Tk. do 6 (split; [auto|]). intros cc ck Mc Mk.
  destruct (opt_exists n W T (ks_lt _ _ _ _ KS) (kstate_sep _ _ _ _ KS PT)) as [c M]. enough (c = N.min (cc + w) (ck + wk)) by congruence.
  rewrite Nc in Mc, Cc. fold n in Mc, Cc.
  destruct M as [[f [F E]] LO]. destruct Mc as [[fc [Fc Q1]] Lc]. destruct Mk as [[fk [Fk Q2]] Lk'].
  assert (A1 : (c <= cc + w)%N) by (pose proof (LO fc Fc); pose proof (proj1 (Cc fc)); lia).
  assert (A2 : (c <= ck + wk)%N) by (destruct (U fk Fk) as (f1 & F1 & X); pose proof (LO f1 F1); lia).
  destruct (Nat.eq_dec (f b) (f t)) as [Q|Q].
  - destruct (D f F Q) as (f' & F' & X). pose proof (Lk' f' F'). lia.
  - pose proof (proj2 (Cc f) Q). pose proof (Lc f F). lia.
Qed.
End Single.

(** ** the two versions of contractEdge *)
Lemma contract_edge_agree G v e G' : m_contract_edge G v e = Some G' -> contract_edge_std G v e = Some G'.
Proof.
  unfold m_contract_edge, contract_edge_std. destruct (slot (m_rows G) v e) as [[[t0 w0] r0]|]; [|discriminate].
  destruct (if t0 <? v then (t0, r0) else (v, e)) as [node edge]. destruct (slot (m_rows G) node edge) as [[[target dw] skip]|]; [|discriminate].
  destruct (Nat.eqb_spec target (m_n G - 1)) as [|NB]; [try discriminate|]; auto.
Qed.

(** ** degreeThreeContraction *)
Theorem degree_three_ok G maps origs T b e t w r G2 w2 : kstate G maps origs T -> slot (m_rows G) b e = Some (t, w, r) -> simple (m_rows G) -> ~ (In b T /\ In t T) ->
  degree_three G b e = Some (G2, w2) ->
  exists G' ts' w' T', single_keep3 maps origs G b e = Some (G', ts', w') /\ kstate G' maps origs T' /\ map fst ts' = live G' T' /\ length T' = length T /\
  (forall f', separates (m_n G') T' f' -> exists f, separates (m_n G) T f /\ f b = f t /\ (cost G f <= cost G' f' + w')%N) /\
  (forall f, separates (m_n G) T f -> f b = f t -> (forall x, In x (tgts (nth b (m_rows G) [])) -> x <> t -> f b <> f x) ->
     exists f', separates (m_n G') T' f' /\ (cost G' f' + w')%N = cost G f).
Proof.
  intros KS S SI NB E. unfold single_keep3. rewrite E. unfold degree_three in E. rewrite S in E. destruct (negb (_ =? 3)); [discriminate|]. destruct (negb _); [discriminate|].
  pose proof (slot_lt _ _ _ _ S) as [HB _].
  destruct (del_edges_at_ok b (m_n G) (fun x => negb (x =? t)) (length (nth b (m_rows G) [])) G 0%N 0 (ks_valid _ _ _ _ KS) eq_refl HB) as (G1 & w1 & E1 & D & Z).
  { unfold rl. lia. } { intros x y Hx. lia. }
  rewrite E1 in E. rewrite N.add_0_l in E. pose proof (vdel_kstate _ _ _ _ _ _ _ _ D KS) as KS1. pose proof (v_simple _ _ _ _ _ _ D SI) as SI1.
  assert (TI : In t (tgts (nth b (m_rows G1) []))).
  { apply (v_tgt _ _ _ _ _ _ D t); [rewrite Nat.eqb_refl; auto|]. apply In_tgts. exists e. unfold tgt_of. rewrite S. reflexivity. }
  assert (S0 : exists wt' r', slot (m_rows G1) b 0 = Some (t, wt', r')).
  { unfold slot. destruct (nth b (m_rows G1) []) as [|[[t' w'] r'] row] eqn:Q; [destruct TI|]. exists w', r'. cbn.
    assert (X : negb (t' =? t) = false) by (apply Z; left; auto). apply Bool.negb_false_iff, Nat.eqb_eq in X. subst. reflexivity. }
  destruct S0 as (w0 & r0 & S0). destruct (contract_state G1 b 0 t w0 r0 maps origs T KS1 SI1 S0 NB) as (G2' & g & E2 & KS2 & UP & DN).
  rewrite E2 in E. injection E as <- <-.
  destruct (finish_terms_ok G2' maps origs (map g T) w1 KS2) as (G3 & ts3 & w3 & E3 & KS3 & L3 & N3 & Z3 & C3).
  exists G3, ts3, (w1 + w3)%N, (map g T). split; [auto|]. split; [auto|]. split; [auto|]. split; [apply map_length|].
  rewrite (v_n _ _ _ _ _ _ D) in UP, DN. rewrite N3. split.
  - intros f' F'. destruct (UP f' F') as (F & Q & C). exists (fun u => f' (g u)). split; [auto|]. split; [auto|].
    pose proof (v_le _ _ _ _ _ _ D (fun u => f' (g u))) as X. rewrite <- C, <- (C3 f' F') in X. lia.
  - intros f F Q NX. destruct (DN f F Q) as (f' & F' & C). exists f'. split; [auto|].
    rewrite <- (v_cost _ _ _ _ _ _ D f); [rewrite <- C, <- (C3 f' F'); lia|]. intros x Hx Px. apply NX; [auto|]. apply Bool.negb_true_iff, Nat.eqb_neq in Px. auto.
Qed.
