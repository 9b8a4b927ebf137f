(* P_Clique2.v - proofs about contractSemiIsolatedCliques (maximal_clique.h:220-291). *)
From Coq Require Import Permutation.
From Verif Require Import SpecRel P_UnionFind P_Cut P_Mutable P_MutableIO P_Multi P_Kernel P_Merge P_Clique.
From Verif Require Export M_Clique.

Section Many.
Context (n : nat) (W : wfun) (ts : list nat) (Sy : symm n W).
(** a set of non-terminals that may be kept together *)
Definition tight (c : list nat) : Prop := NoDup c /\ (forall x, In x c -> x < n /\ ~ In x ts) /\
  exists mw, (0 < mw)%N /\ (forall x y, In x c -> In y c -> x <> y -> (mw <= W x y)%N) /\
    (sumN (fun x => bsum n (fun v => if inb c v then 0%N else W x v)) c <= 2 * mw * N.of_nat (length c - 1))%N.

Lemma put_separates c k f : separates n ts f -> k < length ts -> (forall x, In x c -> ~ In x ts) -> separates n ts (put c k f).
Proof.
  intros [A B] Hk H. unfold put. split; [intros v Hv; destruct (inb c v); auto|]. intros i Hi. destruct (inb c (nth i ts 0)) eqn:E; [|auto]. apply inb_In, H in E. destruct E. apply nth_In. auto.
Qed.
Definition whole (f : nat -> nat) (c : list nat) : bool := forallb (fun x => f x =? f (nth 0 c 0)) c.
Lemma whole_ok f c : whole f c = true -> forall x y, In x c -> In y c -> f x = f y.
Proof. intros H x y Ix Iy. unfold whole in H. rewrite forallb_forall in H. pose proof (H x Ix) as A. pose proof (H y Iy) as B. apply Nat.eqb_eq in A, B. congruence. Qed.
Lemma whole_not f c : whole f c = false -> exists x y, In x c /\ In y c /\ f x <> f y.
Proof.
  intro H. destruct c as [|a c]; [discriminate H|]. unfold whole in H. apply not_true_iff_false in H. destruct (existsb (fun x => negb (f x =? f a)) (a :: c)) eqn:E.
  - apply existsb_exists in E as (x & I & E). apply negb_true_iff, Nat.eqb_neq in E. exists x, a. split; [auto|]. split; [left; auto|auto].
  - exfalso. apply H. apply forallb_forall. intros x I. destruct (f x =? f (nth 0 (a :: c) 0)) eqn:Q; [auto|]. exfalso. assert (X : existsb (fun x => negb (f x =? f a)) (a :: c) = true); [|congruence].
    apply existsb_exists. exists x. split; [auto|]. cbn [nth] in Q. rewrite Q. reflexivity.
Qed.

Lemma keep_together CS : (forall c, In c CS -> tight c) -> forall q f, mtcost n W f = q -> separates n ts f ->
  exists f', separates n ts f' /\ (mtcost n W f' <= mtcost n W f)%N /\ forall c x y, In c CS -> In x c -> In y c -> f' x = f' y.
Proof.
  intros HT q. induction q as [q IHq] using (well_founded_induction N.lt_wf_0). intro f.
  remember (bsum n (fun v => N.of_nat (f v))) as s eqn:Es. revert f Es. induction s as [s IHs] using (well_founded_induction N.lt_wf_0). intros f Es Eq Sf.
  destruct (forallb (whole f) CS) eqn:Ew.
  - exists f. split; [auto|]. split; [lia|]. intros c x y Ic Ix Iy. rewrite forallb_forall in Ew. apply (whole_ok f c); auto.
  - assert (exists c, In c CS /\ whole f c = false) as (c & Ic & Wc).
    { clear - Ew. induction CS as [|c CS IH]; [discriminate Ew|]. cbn in Ew. destruct (whole f c) eqn:E; [destruct IH as (c' & I & Q); [exact Ew|exists c'; split; [right; auto|auto]]|exists c; split; [left; auto|auto]]. }
    destruct (HT c Ic) as (ND & Rg & mw & Pm & Hmw & Hx). destruct (clique_step n W Sy c ND (fun x I => proj1 (Rg x I)) mw Hmw _ eq_refl f Pm Hx (whole_not f c Wc)) as (k & (x & Ix & Ek) & D).
    assert (Hk : k < length ts) by (subst k; apply Sf; apply Rg; auto).
    assert (Sf' : separates n ts (put c k f)) by (apply put_separates; auto; intros z I; apply Rg; auto).
    destruct D as [Lt|(Le & Mn & (z & Iz & Nz))].
    + destruct (IHq (mtcost n W (put c k f))) with (f := put c k f) as (f' & A & B & C); [lia|auto|auto|]. exists f'. split; [auto|]. split; [lia|auto].
    + destruct (N.lt_ge_cases (mtcost n W (put c k f)) (mtcost n W f)) as [Lt|Ge].
      * destruct (IHq (mtcost n W (put c k f))) with (f := put c k f) as (f' & A & B & C); [lia|auto|auto|]. exists f'. split; [auto|]. split; [lia|auto].
      * destruct (IHs (bsum n (fun v => N.of_nat (put c k f v)))) with (f := put c k f) as (f' & A & B & C); [|auto|lia|auto|exists f'; split; [auto|]; split; [lia|auto]].
        subst s. assert (Hz : z < n) by (apply Rg; auto).
        assert (X : (bsum n (fun v => N.of_nat (put c k f v)) + bsum n (fun v => if Nat.eqb v z then 1 else 0) <= bsum n (fun v => N.of_nat (f v)))%N).
        { rewrite <- bsum_add. apply bsum_le. intros v Hv. unfold put. destruct (inb c v) eqn:E; [apply inb_In in E; pose proof (Mn v E)|].
          - destruct (Nat.eqb_spec v z) as [->|]; [pose proof (Mn z Iz)|]; lia.
          - destruct (Nat.eqb_spec v z) as [->|]; [apply inb_out in E; contradiction|lia]. }
        rewrite (bsum_single n (fun _ => 1%N) z Hz) in X. lia.
Qed.
End Many.

(** ** the code *)
Section Rule.
Context (G : mg) (ts : list nat) (MV : mvalid G) (NZ : forall v t w r, In (t, w, r) (nth v (m_rows G) []) -> w <> 0%N).
Let n := m_n G.
Let R := m_rows G.
Let W := wt (adj R).
(** c is a list of different vertices, every two with an edge *)
Definition clique (c : list nat) : Prop := NoDup c /\ (forall x, In x c -> x < n) /\ forall x y, In x c -> In y c -> x <> y -> exists w r, In (y, w, r) (nth x R []).

Lemma edge_fold c : forall row mn a mn' a', fold_left (ci_edge c) row (mn, a) = (mn', a') ->
  a' = (a + sumN (fun h : half => if negb (inb c (fst (fst h))) then snd (fst h) else 0%N) row)%N /\ (mn' <= mn)%N /\
  (forall t w r, In (t, w, r) row -> In t c -> (mn' <= w)%N) /\ ((0 < mn)%N -> (forall t w r, In (t, w, r) row -> w <> 0%N) -> (0 < mn')%N).
Proof.
  induction row as [|[[t w] r] row IH]; intros mn a mn' a' E; cbn [fold_left] in E.
  - injection E as <- <-. split; [cbn; lia|]. split; [lia|]. split; [intros ? ? ? []|auto].
  - unfold ci_edge in E at 2. cbn [fst snd] in E. fold (inb c t) in E. cbn [sumN fst snd]. destruct (inb c t) eqn:Ct; cbn [negb] in *; destruct (IH _ _ _ _ E) as (A & B & C & D).
    + split; [lia|]. split; [lia|]. split; [intros t' w' r' [Q|I] It; [injection Q as <- <- <-; lia|eapply C; eauto]|].
      intros P H. apply D; [pose proof (H t w r (or_introl eq_refl)); lia|]. intros t' w' r' I. apply (H t' w' r'). right. auto.
    + split; [lia|]. split; [lia|]. split; [intros t' w' r' [Q|I] It; [injection Q as <- <- <-; apply inb_In in It; congruence|eapply C; eauto]|].
      intros P H. apply D; [auto|]. intros t' w' r' I. apply (H t' w' r'). right. auto.
Qed.

Lemma edge_weight c x y : clique c -> In x c -> In y c -> x <> y -> exists w, (w <= W x y)%N /\ w <> 0%N /\ exists r, In (y, w, r) (nth x R []).
Proof. intros (_ & _ & H) Ix Iy N. destruct (H x y Ix Iy N) as (w & r & I). exists w. split; [apply (P_LocalSearch.edge_le R x y w r I)|]. split; [apply (NZ x y w r I)|exists r; auto]. Qed.

Lemma inside c x : clique c -> In x c -> (N.of_nat (length c - 1) <= nth x (m_deg G) 0 - sumN (fun h : half => if negb (inb c (fst (fst h))) then snd (fst h) else 0%N) (nth x R []))%N.
Proof.
  intros CL Ix. pose proof CL as (ND & Rg & Ad).
  assert (Dg : nth x (m_deg G) 0%N = sumN (fun h : half => snd (fst h)) (nth x R [])) by (apply MV; apply Rg; auto).
  assert (Sp : sumN (fun h : half => snd (fst h)) (nth x R []) = (sumN (fun h : half => if inb c (fst (fst h)) then snd (fst h) else 0%N) (nth x R []) + sumN (fun h : half => if negb (inb c (fst (fst h))) then snd (fst h) else 0%N) (nth x R []))%N).
  { rewrite <- sumN_add. apply sumN_ext. intros h _. destruct (inb c (fst (fst h))); cbn; lia. }
  rewrite (row_sum R x (inb c) (proj1 MV)) in Sp. change (length R) with n in Sp. rewrite (bsum_in n (wt (adj R) x) c ND Rg) in Sp.
  assert (L : (N.of_nat (length c - 1) <= sumN (wt (adj R) x) c)%N).
  { destruct (in_split _ _ Ix) as (l1 & l2 & Ec). assert (P : Permutation c (x :: l1 ++ l2)) by (rewrite Ec at 1; symmetry; apply Permutation_middle).
    rewrite (sumN_perm _ _ _ P), (Permutation_length P). cbn [sumN length]. replace (S (length (l1 ++ l2)) - 1) with (length (l1 ++ l2)) by lia.
    assert (Q : (1 * N.of_nat (length (l1 ++ l2)) <= sumN (wt (adj R) x) (l1 ++ l2))%N); [|lia]. rewrite <- sumN_const. apply sumN_le. intros y I.
    assert (Iy : In y c) by (apply (Permutation_in _ (Permutation_sym P)); right; auto). assert (Nxy : x <> y). { intros <-. rewrite Ec in ND. apply NoDup_remove_2 in ND. contradiction. }
    destruct (edge_weight c x y CL Ix Iy Nxy) as (w & A & B & _). unfold W in A. lia. }
  lia.
Qed.

Lemma nodes_ok c : clique c -> forall l mn a, incl l c -> (0 < mn)%N -> exists mn' a', fold_left (fun o x => match o with Some b => ci_node G c b x | None => None end) l (Some (mn, a)) = Some (mn', a') /\
  a' = (a + sumN (fun x => bsum n (fun v => if inb c v then 0%N else W x v)) l)%N /\ (0 < mn')%N /\ (mn' <= mn)%N /\ forall x y, In x l -> In y c -> x <> y -> (mn' <= W x y)%N.
Proof.
  intros CL. induction l as [|x l IH]; intros mn a Sub Pm; cbn [fold_left sumN].
  - exists mn, a. split; [auto|]. split; [lia|]. split; [auto|]. split; [lia|]. intros x y [].
  - unfold ci_node at 2. cbn [fst snd]. destruct (fold_left (ci_edge c) (nth x (m_rows G) []) (mn, 0%N)) as [mn1 ne] eqn:E. destruct (edge_fold c _ _ _ _ _ E) as (A & B & C & D).
    assert (Ix : In x c) by (apply Sub; left; auto). pose proof (inside c x CL Ix) as In1. fold R in A, C, D. rewrite N.add_0_l in A. rewrite <- A in In1. destruct (N.ltb_spec (nth x (m_deg G) 0 - ne)%N (N.of_nat (length c - 1))) as [Q|Q]; [lia|].
    destruct (IH mn1 (a + ne)%N) as (mn' & a' & F1 & F2 & F3 & F4 & F5); [intros z I; apply Sub; right; auto|apply D; auto; intros; eapply NZ; eauto|].
    exists mn', a'. split; [exact F1|]. split; [|split; [auto|split; [lia|]]].
    + rewrite F2, A, (row_sum R x (fun z => negb (inb c z)) (proj1 MV)). change (length R) with n. rewrite (bsum_ext n (fun z => if negb (inb c z) then wt (adj R) x z else 0%N) (fun v => if inb c v then 0%N else W x v)); [lia|]. intros v _. destruct (inb c v); reflexivity.
    + intros x' y [<-|I] Iy Nxy; [|apply F5; auto]. destruct (edge_weight c x y CL Ix Iy Nxy) as (w & Lw & _ & r & Ir). pose proof (C y w r Ir Iy). lia.
Qed.

(** the united pairs come from tight cliques of at least two members *)
Definition from (CS : list (list nat)) (ps : list (nat * nat)) : Prop := forall a b, In (a, b) ps -> exists c, In c CS /\ In a c /\ In b c.
Lemma unite_ok c : forall l, incl l c -> (forall x, In x c -> x < n) -> forall u ps, inv n ps u -> exists u' ps', fold_left (fun o x => match o with Some u => option_map fst (uf_union u x (nth 0 c 0)) | None => None end) l (Some u) = Some u' /\
  inv n ps' u' /\ forall a b, In (a, b) ps' -> In (a, b) ps \/ (In a c /\ In b c).
Proof.
  induction l as [|x l IH]; intros Sub Rg u ps I; cbn [fold_left]; [exists u, ps; auto|]. assert (Ix : In x c) by (apply Sub; left; auto).
  assert (I0 : In (nth 0 c 0) c) by (destruct c; [destruct Ix|left; auto]). destruct (union_inv n ps u x (nth 0 c 0) I (Rg x Ix) (Rg _ I0)) as (u1 & t & E & I1 & _). rewrite E. cbn [option_map fst].
  destruct (IH (fun z J => Sub z (or_intror J)) Rg u1 _ I1) as (u' & ps' & E' & I' & F). exists u', ps'. split; [exact E'|]. split; [auto|]. intros a b J. destruct (F a b J) as [J'|J']; [|auto]. apply in_app_iff in J' as [J'|[J'|[]]]; [auto|]. injection J' as <- <-. auto.
Qed.

Lemma cliques_fold : forall cs, (forall c, In c cs -> clique c) -> forall CS u ps, (forall c, In c CS -> tight n W ts c) -> (forall c x, In c CS -> In x c -> nth x R [] <> []) -> inv n ps u -> from CS ps ->
  exists u' ps' CS', fold_left (fun o c => match o with Some u => ci_clique G ts u c | None => None end) cs (Some u) = Some u' /\ inv n ps' u' /\ from CS' ps' /\
    (forall c, In c CS' -> tight n W ts c) /\ (forall c x, In c CS' -> In x c -> nth x R [] <> []).
Proof.
  induction cs as [|c cs IH]; intros Hc CS u ps HT HE I F; cbn [fold_left]; [exists u, ps, CS; auto|]. assert (CL : clique c) by (apply Hc; left; auto). assert (Hc' : forall c, In c cs -> clique c) by (intros; apply Hc; right; auto).
  unfold ci_clique at 2. destruct (existsb (isterm ts) c) eqn:Et; [apply (IH Hc' CS u ps); auto|].
  destruct (nodes_ok c CL c undef_w 0%N (incl_refl c) ltac:(reflexivity)) as (mn & ex & E & Ex & Pm & _ & Mn). rewrite E. rewrite N.add_0_l in Ex.
  destruct (N.leb_spec ex (2 * mn * N.of_nat (length c - 1))) as [Le|]; cbn [andb]; [|apply (IH Hc' CS u ps); auto]. destruct (Nat.ltb_spec 1 (length c)) as [L2|]; [|apply (IH Hc' CS u ps); auto].
  pose proof CL as (ND & Rg & Ad). destruct (unite_ok c c (incl_refl c) Rg u ps I) as (u1 & ps1 & E1 & I1 & F1). rewrite E1. apply (IH Hc' (c :: CS) u1 ps1); auto.
  - intros c' [<-|J]; [|auto]. split; [auto|]. split.
    + intros x J. split; [auto|]. intro Jt. assert (X : existsb (isterm ts) c = true); [|congruence]. apply existsb_exists. exists x. split; [auto|]. apply isterm_In. auto.
    + exists mn. split; [auto|]. split; [intros; apply Mn; auto|]. rewrite <- Ex. exact Le.
  - intros c' x [<-|J] Jx; [|apply (HE c'); auto]. assert (exists y, In y c /\ x <> y) as (y & Iy & Nxy).
    { destruct c as [|a [|b c]]; cbn in L2; try lia. inversion ND as [|? ? Na _]. destruct (Nat.eq_dec x a) as [->|]; [exists b; split; [right; left; auto|intros ->; apply Na; left; auto]|exists a; split; [left; auto|auto]]. }
    destruct (Ad x y Jx Iy Nxy) as (w & r & J). intro Z. rewrite Z in J. destruct J.
  - intros a b J. destruct (F1 a b J) as [J'|[Ja Jb]]; [destruct (F a b J') as (c' & Q & Qa & Qb); exists c'; split; [right; auto|auto]|exists c; split; [left; auto|auto]].
Qed.

Theorem contract_cliques_ok cs : (forall c, In c cs -> clique c) -> exists u ps, contract_cliques cs G ts = Some u /\ inv n ps u /\ safe_pairs n W ts (conn ps) /\ edges_only R ps.
Proof.
  intro Hc. destruct (cliques_fold cs Hc [] (uf_init n) []) as (u & ps & CS & E & I & F & HT & HE); [intros ? []|intros ? ? []|apply inv_init|intros ? ? []|].
  exists u, ps. split; [exact E|]. split; [exact I|]. split.
  - intros f Sf. destruct (keep_together n W ts (W_symm R (proj1 MV)) CS HT _ f eq_refl Sf) as (f' & A & B & C). exists f'. split; [auto|]. split; [auto|]. intros a b _ _ Cn.
    revert a b Cn. refine (conn_in_relation ps (fun a b => f' a = f' b) _ _ _ _); [auto|auto|intros; congruence|]. intros x y J. destruct (F x y J) as (c & Ic & Ix & Iy). apply (C c); auto.
  - intros a b J. destruct (F a b J) as (c & Ic & Ia & Ib). split; eapply HE; eauto.
Qed.
End Rule.
