(* P_Merge5.v - proofs about mergeGraphs, part 5: contracting an empty vertex with two junctions into a tree neighbour; canonizeCactus. *)
From Verif Require Import SpecCut SpecDyn SpecMutable M_Mutable P_Mutable P_Cut P_Crossing P_LocalSearch P_LocalSearch2 P_AllMincuts P_MutableIO P_IsoFlow2 M_Branch P_ContractStd P_ContractStd2 M_StCactus M_Merge P_StCactus3 P_StCactus7 P_StCactus8 P_StCactus9 P_Merge P_Merge2 P_Merge3 P_Merge4.

Section One.
Context (n : nat) (c : N) (Pc : (0 < c)%N) (F : (nat -> bool) -> Prop) (Fa : family n F) (M : mg) (R : rep n c F M).
Notation W := (wt (adj (m_rows M))). Notation k := (m_n M). Notation pos x := (nth x (m_pos M) 0).

Lemma rep_symm : symm k W.
Proof. apply (valid_symm (m_rows M)). apply (rp_valid _ _ _ _ R). Qed.
Lemma rep_half u v : exists j, (2 * W u v = j * c)%N.
Proof.
  unfold wt. rewrite adj_nth. destruct (rp_shape _ _ _ _ R) as (_ & _ & _ & Sh). specialize (Sh u). revert Sh. generalize (nth u (m_rows M) []) as row. induction row as [|[[t w] r] row IH]; intro Sh; [exists 0%N; reflexivity|].
  cbn [map filter fst snd]. destruct IH as [j E]; [intros t' w' r' I; apply (Sh t' w' r'); right; auto|]. destruct (t =? v); [|exists j; auto]. cbn [sumN snd]. destruct (Sh t w r (or_introl eq_refl)) as [->|E2]; [exists (2 + j)%N; lia|exists (1 + j)%N; lia].
Qed.
Lemma rep_degree v : v < k -> exists j, gcut M (fun x => x =? v) = (j * c)%N.
Proof. intro Hv. apply (degree_mult k W c Pc rep_symm (rp_low _ _ _ _ R) (rp_apart _ _ _ _ R)); auto. intros. apply rep_half. Qed.
Lemma rep_nozero : no_zero (m_rows M).
Proof. intros v t w r I ->. destruct (rp_shape _ _ _ _ R) as (_ & _ & _ & Sh). destruct (Sh v t 0%N r I); lia. Qed.
(** every side of a cut of weight c holds an original vertex *)
Lemma rep_side f : proper k f -> gcut M f = c -> exists x, x < n /\ f (pos x) = true.
Proof. intros P E. pose proof (rp_sound _ _ _ _ R f P E) as S. apply (fa_proper _ _ Fa) in S. destruct S as [(x & Hx & E1) _]. exists x. auto. Qed.
Lemma rep_empty v : v < k -> nth v (m_cont M) [] = [] -> forall x, x < n -> pos x <> v.
Proof.
  intros Hv E x Hx Q. destruct (rp_groups _ _ _ _ R) as [_ G]. assert (I : In x (nth v (m_cont M) [])) by (apply G; auto; rewrite (rp_lp _ _ _ _ R); auto). rewrite E in I. destruct I.
Qed.
(** a vertex whose original vertices form a cut of the family is a cut by itself *)
Lemma rep_single v : v < k -> (exists x, x < n /\ pos x = v) -> F (fun x => pos x =? v) -> gcut M (fun x => x =? v) = c.
Proof.
  intros Hv (x0 & Hx0 & Px0) H. destruct (rp_complete _ _ _ _ R _ H) as (f & E & Q).
  apply (single_cut k W c Pc rep_symm (rp_low _ _ _ _ R) (rp_apart _ _ _ _ R) (fun y => negb (existsb (fun x => pos x =? y) (seq 0 n)))) with (K := f) (m := N.to_nat (bsum k (fun x => if f x then 1%N else 0%N))); auto.
  - intros g P C. destruct (rep_side g P C) as (x & Hx & G). exists (pos x). split; [apply (rp_range _ _ _ _ R); auto|]. split; [auto|]. apply negb_false_iff. apply existsb_exists. exists x. rewrite Nat.eqb_refl. split; [apply in_seq; lia|auto].
  - rewrite N2Nat.id. reflexivity.
  - rewrite <- Px0, Q by auto. cbv beta. rewrite Px0. apply Nat.eqb_refl.
  - intros y Hy Fy Ny. apply negb_true_iff. apply existsb_false. intros x Hx. apply in_seq in Hx. destruct (Nat.eqb_spec (pos x) y) as [P|]; [|reflexivity]. exfalso. specialize (Q x ltac:(lia)). rewrite P, Fy in Q. destruct (Nat.eqb_spec y v); [auto|discriminate Q].
Qed.
(** an empty vertex has at least two junctions *)
Lemma empty_degree v : v < k -> 2 <= k -> (forall x, x < n -> pos x <> v) -> exists j, (2 <= j)%N /\ gcut M (fun x => x =? v) = (j * c)%N.
Proof.
  intros Hv K2 Em. destruct (rep_degree v Hv) as [j E]. exists j. split; [|auto]. pose proof (proper_single k v K2 Hv) as P. pose proof (rp_low _ _ _ _ R _ P) as L. change (c <= gcut M (fun x => Nat.eqb x v))%N in L. rewrite E in L.
  assert (j <> 0%N) by (intros ->; lia). assert (j <> 1%N); [|lia]. intros ->. rewrite N.mul_1_l in E. destruct (rep_side _ P E) as (x & Hx & Q). apply Nat.eqb_eq in Q. apply (Em x); auto.
Qed.

Lemma slot_in v e t w r : slot (m_rows M) v e = Some (t, w, r) -> In (t, w, r) (nth v (m_rows M) []).
Proof. intro S. eapply nth_error_In. exact S. Qed.
Lemma rep_two v e u r : v < k -> slot (m_rows M) v e = Some (u, c, r) -> u < k /\ v <> u /\ W v u = c.
Proof.
  intros Hv S. destruct (rp_valid _ _ _ _ R) as [V _]. destruct (proj2 (linked_valid _) V v e u c r S eq_refl) as (A & B & _). split; [exact A|]. split; [congruence|]. symmetry. eapply edge_simple; [apply (rp_nopar _ _ _ _ R)|eapply slot_in; eauto].
Qed.

Theorem contract_rep v e u r : v < k -> (forall x, x < n -> pos x <> v) -> slot (m_rows M) v e = Some (u, c, r) -> gcut M (fun x => x =? v) = (2 * c)%N ->
  exists M', contract_edge_std M v e = Some M' /\ rep n c F M'.
Proof.
  intros Hv Em S Dg. destruct (rep_two v e u r Hv S) as (Hu & Nvu & Wc). destruct (rp_shape _ _ _ _ R) as (L1 & L2 & L3 & Sh).
  destruct (contract_edge_std_ok M v e u c r (rp_valid _ _ _ _ R) L1 L2 S) as (M' & f & E & V' & N' & LP' & LC' & CL & MG & CT & GR).
  { rewrite adj_nth, map_map. apply (rp_nopar _ _ _ _ R). }
  destruct (contract_edge_std_keeps M v e u c r M' (rp_valid _ _ _ _ R) L1 L2 S (rp_nopar _ _ _ _ R) rep_nozero E) as (K1 & K2 & K3 & K4 & K5).
  destruct (GR (rp_groups _ _ _ _ R)) as (G1 & G2 & G3). rewrite (rp_lp _ _ _ _ R) in *.
  exists M'. split; [auto|]. destruct CL as [CL1 CL2].
  assert (CG : forall g, gcut M' g = gcut M (fun x => g (f x))) by (intro g; apply (contraction_cut k W f); auto).
  assert (Lo' : atleast c (m_n M') (wt (adj (m_rows M')))).
  { intros g P. change (c <= gcut M' g)%N. rewrite CG. apply (rp_low _ _ _ _ R). apply (proper_pull k f (m_n M') g); [split; auto|auto]. }
  assert (Desc : forall h, gcut M h = c -> exists g, gcut M' g = c /\ forall x, x < k -> x <> v -> g (f x) = h x).
  { intros h Ch.
    assert (Q : exists h', gcut M h' = c /\ h' v = h' u /\ forall x, x < k -> x <> v -> h' x = h x).
    { destruct (Bool.bool_dec (h v) (h u)) as [Eq|Ne]; [exists h; auto|]. exists (fun x => if x =? v then h u else h x). split; [apply (flip_cut k W c Pc rep_symm v u h); auto|]. split; [rewrite Nat.eqb_refl; destruct (u =? v); reflexivity|]. intros x _ Nx. destruct (Nat.eqb_spec x v); [contradiction|reflexivity]. }
    destruct Q as (h' & C' & Evu & Ag). destruct (descend k f (m_n M') h') as [g Hg]; [split; auto| |].
    - intros a b Ha Hb Eab. apply MG in Eab; auto. destruct Eab as [->|[[-> | ->] [-> | ->]]]; auto.
    - exists g. split; [|intros x Hx Nx; rewrite Hg; auto]. rewrite CG. rewrite <- C'. apply gcut_ext. intros x Hx. apply Hg. auto. }
  assert (Ap' : apart c (m_n M') (wt (adj (m_rows M')))).
  { intros p q Hp Hq Npq.
    assert (Lift : forall p, p < m_n M' -> exists x, x < k /\ x <> v /\ f x = p). { intros p0 Hp0. destruct (CL2 p0 Hp0) as (x & Hx & Fx). destruct (Nat.eq_dec x v) as [->|]; [|exists x; auto]. exists u. split; [auto|]. split; [auto|]. rewrite <- Fx. apply MG; auto. }
    destruct (Lift p Hp) as (x & Hx & Nx & Fx). destruct (Lift q Hq) as (y & Hy & Ny & Fy). destruct (rp_apart _ _ _ _ R x y Hx Hy ltac:(congruence)) as (h & Dh & Ch).
    destruct (Desc h Ch) as (g & Cg & Hg). exists g. rewrite <- Fx, <- Fy, !Hg by auto. split; auto. }
  constructor.
  - exact V'.
  - rewrite K3, N', (rp_last _ _ _ _ R). reflexivity.
  - rewrite K4. apply (rp_orig _ _ _ _ R).
  - exact G2.
  - intros x Hx. rewrite G3 by auto. apply CL1. apply (rp_range _ _ _ _ R); auto.
  - exact G1.
  - split; [auto|]. split; [auto|]. split; [rewrite K5, L3, N'; reflexivity|]. intros p q w r' I.
    assert (Wpq : w = wt (adj (m_rows M')) p q) by (eapply edge_simple; eauto). pose proof (K2 p q w r' I) as Wz.
    apply In_nth_error in I. destruct I as [e' I]. assert (S' : slot (m_rows M') p e' = Some (q, w, r')) by exact I. destruct V' as [V' _]. destruct (proj2 (linked_valid _) V' p e' q w r' S' eq_refl) as (Hq & Npq & _). destruct (slot_lt _ _ _ _ S') as [Hp _].
    change (length (m_rows M')) with (m_n M') in *.
    assert (Mu : exists j, (2 * w = j * c)%N). { rewrite Wpq, (CT p q Hp Hq ltac:(congruence)). apply (mult_sum k W c Pc (fun a b _ _ _ => rep_half a b)). intros a Ha. apply (mult_sum k W c Pc (fun a b _ _ _ => rep_half a b)). intros b Hb. destruct ((f a =? p) && (f b =? q)); [apply rep_half|exists 0%N; reflexivity]. }
    assert (Le : (w <= c)%N). { destruct (Ap' p q Hp Hq ltac:(congruence)) as (g & Dg' & Cg). rewrite <- Cg, Wpq. assert (Sy' : symm (m_n M') (wt (adj (m_rows M')))) by (apply (valid_symm (m_rows M')); auto). destruct (g p) eqn:Q1, (g q) eqn:Q2; try congruence; [rewrite cutw_btw; apply btw_one; auto; rewrite Q2; reflexivity|]. rewrite <- (cutw_compl _ _ g Sy'), cutw_btw. apply btw_one; auto; cbv beta; [rewrite Q1|rewrite Q2]; reflexivity. }
    destruct Mu as [j Ej]. assert (J : j = 1%N \/ j = 2%N) by nia. destruct J as [-> | ->]; [right|left]; lia.
  - exact K1.
  - exact Lo'.
  - exact Ap'.
  - intros g P Cg. rewrite CG in Cg. eapply (fa_ext n F Fa); [|apply (rp_sound _ _ _ _ R (fun x => g (f x))); [apply (proper_pull k f (m_n M') g); [split; auto|auto]|auto]]. intros x Hx. cbv beta. rewrite G3 by auto. reflexivity.
  - intros Y FY. destruct (rp_complete _ _ _ _ R Y FY) as (h & Ch & Hh). destruct (Desc h Ch) as (g & Cg & Hg). exists g. split; [auto|]. intros x Hx. rewrite G3 by auto. rewrite Hg; [auto|apply (rp_range _ _ _ _ R); auto|apply Em; auto].
Qed.

Lemma cz_edges_ok row : forall e ts cs d, cz_edges c e row = (ts, cs, d) -> d = sumN (fun h : half => snd (fst h)) row /\ forall t e', In (t, e') ts -> e <= e' /\ exists r, nth_error row (e' - e) = Some (t, c, r).
Proof.
  induction row as [|[[t w] r] row IH]; intros e ts cs d E; cbn [cz_edges] in E; [injection E as <- <- <-; split; [reflexivity|intros t e' []]|].
  destruct (cz_edges c (Datatypes.S e) row) as [[ts' cs'] d'] eqn:Q. destruct (IH _ _ _ _ Q) as [D T]. cbn [sumN fst snd]. rewrite <- D.
  assert (Shift : forall t0 e', In (t0, e') ts' -> e <= e' /\ exists r0, nth_error ((t, w, r) :: row) (e' - e) = Some (t0, c, r0)).
  { intros t0 e' I. destruct (T t0 e' I) as (A & r0 & B). split; [lia|]. exists r0. replace (e' - e) with (Datatypes.S (e' - Datatypes.S e)) by lia. exact B. }
  destruct (N.eqb_spec w c) as [->|Nw]; injection E as <- <- <-; (split; [reflexivity|]); auto.
  intros t0 e' [I|I]; [|auto]. injection I as <- <-. split; [lia|]. exists r. rewrite Nat.sub_diag. reflexivity.
Qed.
Lemma degree_row v : v < k -> sumN (fun h : half => snd (fst h)) (nth v (m_rows M) []) = gcut M (fun x => x =? v).
Proof.
  intro Hv. destruct (rp_valid _ _ _ _ R) as [V _]. pose proof (row_sum (m_rows M) v (fun _ => true) V) as E. cbv beta iota in E. etransitivity; [exact E|]. unfold gcut. rewrite cutw_single by auto. unfold wdeg. apply bsum_ext. intros z Hz. destruct (Nat.eqb_spec z v) as [->|]; [apply wt_self; auto|reflexivity].
Qed.

Theorem canonize_rep fuel v : v < k -> 2 <= k -> (forall x, x < n -> pos x <> v) -> gcut M (fun x => x =? v) <> (3 * c)%N ->
  exists M', canonize fuel M v c = Some M' /\ rep n c F M'.
Proof.
  intros Hv K2 Em N3. destruct (empty_degree v Hv K2 Em) as (j & J2 & E). unfold canonize. destruct (cz_edges c 0 (nth v (m_rows M) [])) as [[ts cs] d] eqn:Q. destruct (cz_edges_ok _ _ _ _ _ Q) as [D T]. rewrite (degree_row v Hv), E in D.
  destruct (N.eqb_spec c 0) as [|_]; [lia|]. rewrite D. rewrite N.mod_mul, N.div_mul by lia. cbn [N.eqb negb].
  destruct (N.eqb_spec j 2) as [->|].
  - destruct ts as [|[t e] ts]; [exists M; auto|]. destruct (T t e (or_introl eq_refl)) as (_ & r & S). rewrite Nat.sub_0_r in S. apply (contract_rep v e t r); auto.
  - destruct (N.eqb_spec j 3) as [->|]; [congruence|]. exists M. auto.
Qed.
End One.
