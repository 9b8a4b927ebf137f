(* P_AllMincuts2.v - proofs about findAllMincuts, part 2: the rounds of contractions. *)
From Verif Require Import SpecRel SpecCut SpecHier SpecPR SpecDyn SpecMutable M_UnionFind P_UnionFind M_Mutable P_Mutable P_Cut P_Contract P_Hier P_PR P_PRTests M_Noi P_Noi Prop_Noi Prop_AllCut M_AllMincuts P_LocalSearch2 P_AllMincuts.

(** contraction does not increase the total weight *)
Lemma hier_total G0 maps H : undirected G0 -> hier G0 maps H -> (total H <= total G0)%N.
Proof.
  intros U Hh. destruct (hier_ok G0 maps H U Hh) as [UH [Cl Ct]]. unfold total.
  set (f := coarse_id maps) in *.
  transitivity (bsum (length H) (fun p => bsum (length G0) (fun u => if f u =? p then deg G0 u else 0%N))).
  - apply bsum_le. intros p Hp. rewrite deg_cut by auto. rewrite (contraction_cut _ _ _ _ _ _ (proj1 Cl) Ct). unfold cutw. apply bsum_le. intros u Hu.
    destruct (f u =? p); cbn [andb]; [|rewrite bsum_zero; auto; lia]. rewrite wt_deg by auto. apply bsum_le. intros v Hv. destruct (negb _); lia.
  - rewrite bsum_swap. apply N.eq_le_incl. apply bsum_ext. intros u Hu.
    rewrite (bsum_ext _ _ (fun p => if p =? f u then deg G0 u else 0%N)) by (intros; rewrite Nat.eqb_sym; auto).
    apply (bsum_single (length H) (fun _ => deg G0 u)). apply Cl; auto.
Qed.

(** * the guaranteed edges *)
Lemma guaranteed_ok c H : undirected H -> forall ns u ps ge, NoDup ns -> (forall x, In x ns -> x < length H) -> inv (length H) ps u ->
  exists u' ge', guaranteed c H ns u ge = Some (u', ge ++ ge') /\ inv (length H) (ps ++ ge') u' /\ NoDup (map fst ge') /\
    (forall v t, In (v, t) ge' -> In v ns /\ nth v H [] = [(t, c)]) /\
    (forall l1 v t l2, ge' = l1 ++ (v, t) :: l2 -> exists u1, inv (length H) (ps ++ l1) u1 /\ 1 < cnt u1).
Proof.
  intros U. induction ns as [|n ns IH]; intros u ps ge ND B Iu; cbn [guaranteed].
  - exists u, []. rewrite !app_nil_r. split; [auto|]. split; [auto|]. split; [constructor|]. split; [intros v t []|]. intros l1 v t l2 E. destruct l1; discriminate E.
  - apply NoDup_cons_iff in ND. destruct ND as [Nn ND].
    assert (Sk : exists u' ge', guaranteed c H ns u ge = Some (u', ge ++ ge') /\ inv (length H) (ps ++ ge') u' /\ NoDup (map fst ge') /\
      (forall v t, In (v, t) ge' -> In v (n :: ns) /\ nth v H [] = [(t, c)]) /\
      (forall l1 v t l2, ge' = l1 ++ (v, t) :: l2 -> exists u1, inv (length H) (ps ++ l1) u1 /\ 1 < cnt u1)).
    { destruct (IH u ps ge ND (fun x I => B x (or_intror I)) Iu) as (u' & ge' & E & I' & N' & F & L). exists u', ge'. split; [auto|]. split; [auto|]. split; [auto|]. split; [|auto].
      intros v t I. destruct (F v t I). split; [right; auto|auto]. }
    destruct (nth n H []) as [|[t w] [|? ?]] eqn:Row; try exact Sk.
    destruct ((w =? c)%N && (1 <? uf_n u)) eqn:Q; [|exact Sk]. clear Sk. apply andb_prop in Q. destruct Q as [Q1 Q2]. apply N.eqb_eq in Q1. apply Nat.ltb_lt in Q2. subst w.
    assert (Ht : t < length H). { pose proof (proj1 U n t c) as X. rewrite Row in X. apply X. left. auto. }
    destruct (union_inv _ _ _ n t Iu (B n (or_introl eq_refl)) Ht) as (u1 & b & E1 & I1 & _). rewrite E1.
    destruct (IH u1 (ps ++ [(n, t)]) (ge ++ [(n, t)]) ND (fun x I => B x (or_intror I)) I1) as (u' & ge' & E & I' & N' & F & L).
    exists u', ((n, t) :: ge'). rewrite E. rewrite <- !app_assoc in *. cbn [app] in *. split; [auto|]. split; [auto|]. split; [|split].
    + cbn. constructor; auto. intro X. apply in_map_iff in X. destruct X as [[v s] [Ev Iv]]. cbn in Ev. subst v. destruct (F n s Iv). contradiction.
    + intros v s [I|I]; [injection I as <- <-; split; [left; auto|auto]|]. destruct (F v s I). split; [right; auto|auto].
    + intros [|e l1] v s l2 X; cbn in X.
      * exists u. rewrite app_nil_r. split; auto.
      * injection X as <- X. destruct (L l1 v s l2 X) as (u2 & I2 & C2). exists u2. rewrite <- app_assoc in I2. cbn in I2. auto.
Qed.

(** a union find in which everything is joined has one set *)
Lemma cnt_one n ps u a : inv n ps u -> a < n -> (forall x, x < n -> conn ps x a) -> cnt u <= 1.
Proof.
  intros Iu Ha A. destruct (inv_classes n ps u Iu) as [reps [L [ND [Lt [Un _]]]]]. rewrite <- L.
  destruct reps as [|r1 [|r2 reps]]; cbn; try lia. exfalso. apply NoDup_cons_iff in ND. destruct ND as [Nr _]. apply Nr. left. symmetry.
  assert (H1 : r1 < n) by (apply Lt; left; auto). assert (H2 : r2 < n) by (apply Lt; right; left; auto).
  apply (Un r1 r2); [left; auto|right; left; auto|]. apply (conn_trans _ _ a); [apply A; auto|apply conn_sym, A; auto].
Qed.

Section Round.
Variable (lambda : N).
Hypothesis Pl : (0 < lambda)%N.

Definition low (H : graph) : Prop := forall S, proper (length H) S -> (lambda <= hcut H S)%N.

Lemma below_lambda H S : low H -> proper (length H) S -> hcut H S = lambda -> mincut_below H (lambda + 1) S.
Proof. intros L P E. split; [auto|]. unfold hcut in *. split; [intros S' P'; rewrite E; apply L; auto|lia]. Qed.

(** contraction of sets that agree with all cuts of value lambda, up to the leaves in es *)
Lemma contract_step ord H ps u es : perm_ord ord -> undirected H -> inv (length H) ps u -> leaves_ok (length H) es ->
  (forall v t, In (v, t) es -> lone H lambda v t /\ conn ps v t) ->
  (forall S, proper (length H) S -> hcut H S = lambda -> agree es S -> forall a b, conn ps a b -> S a = S b) ->
  exists H' m, from_union_find ord H u = Some (H', m) /\ step lambda H es m H' /\ length H' = cnt u.
Proof.
  intros Po U Iu Le Lo Co. destruct (from_uf_ok ord H ps u Po U Iu) as (H' & m & E & Lm & LH & Cn & Cl & Ct & U' & Sm). exists H', m. split; [auto|]. split; [|auto]. constructor; auto.
  - intro x. apply Sm.
  - intros v t I. destruct (Lo v t I) as [A B]. split; [auto|]. destruct Le as [_ Le]. destruct (Le v t I) as (Hv & Ht & _). apply Cn; auto.
  - intros S PS ES AS a b Ha Hb Eab. apply (Co S PS ES AS). apply Cn; auto.
Qed.

Lemma step_low H es m H' : step lambda H es m H' -> low H -> low H'.
Proof. intros St L S P. unfold hcut. apply (contraction_lower _ _ _ _ _ (st_cl _ _ _ _ _ St) (st_ct _ _ _ _ _ St) lambda L S P). Qed.

Lemma upd_cut H : undirected H -> low H -> (lambda <= u64max)%N -> (if 1 <? length H then N.min lambda (min_degree H) else lambda) = lambda.
Proof.
  intros U L B. destruct (Nat.ltb_spec 1 (length H)) as [L2|]; auto. destruct (min_degree_ok H) as (_ & _ & [E|[v [Hv E]]]); rewrite E; [lia|].
  rewrite deg_cut by auto. assert (lambda <= cutw (length H) (wt H) (fun x : nat => Nat.eqb x v))%N; [|lia]. apply L. apply proper_single; auto.
Qed.

(** two leaves that are adjacent are the whole graph *)
Lemma leaf_pair H v t : undirected H -> low H -> v < length H -> nth v H [] = [(t, lambda)] -> nth t H [] = [(v, lambda)] -> length H = 2.
Proof.
  intros U L Hv Rv Rt. pose proof (proj1 U v t lambda) as B. rewrite Rv in B. destruct (B (or_introl eq_refl)) as [Ht Nt]. clear B.
  destruct (Nat.lt_ge_cases 2 (length H)) as [L3|L2]; [|lia]. exfalso.
  assert (P : proper (length H) (fun x => (x =? v) || (x =? t))).
  { split; [exists v; split; [auto|rewrite Nat.eqb_refl; auto]|].
    assert (X : exists y, y < 3 /\ y <> v /\ y <> t).
    { destruct (Nat.eq_dec v 0), (Nat.eq_dec t 0); [lia|destruct (Nat.eq_dec t 1); [exists 2|exists 1]; lia|destruct (Nat.eq_dec v 1); [exists 2|exists 1]; lia|exists 0; lia]. }
    destruct X as (y & Hy & N1 & N2). exists y. split; [lia|]. apply orb_false_iff. split; apply Nat.eqb_neq; auto. }
  specialize (L _ P). unfold hcut, cutw in L. rewrite bsum_zero in L; [lia|]. intros a Ha. apply bsum_zero. intros b Hb.
  destruct (Nat.eqb_spec a v) as [Qa|Na]; [|destruct (Nat.eqb_spec a t) as [Qa|Na2]; [|reflexivity]]; cbn [orb andb].
  - destruct (Nat.eqb_spec b v); [reflexivity|]. destruct (Nat.eqb_spec b t) as [|Nb]; [reflexivity|]. cbn [orb negb]. unfold wt. rewrite Qa, Rv. cbn. destruct (Nat.eqb_spec t b); [congruence|reflexivity].
  - destruct (Nat.eqb_spec b v) as [|Nb]; [reflexivity|]. destruct (Nat.eqb_spec b t); [reflexivity|]. cbn [orb negb]. unfold wt. rewrite Qa, Rt. cbn. destruct (Nat.eqb_spec v b); [congruence|reflexivity].
Qed.

(** the leaves collected in one round *)
Lemma guaranteed_step c0 H u ps : c0 = lambda -> undirected H -> low H -> inv (length H) ps u -> (forall S, proper (length H) S -> hcut H S = lambda -> forall a b, In (a, b) ps -> S a = S b) ->
  exists u' es, guaranteed c0 H (seq 0 (length H)) u [] = Some (u', es) /\ inv (length H) (ps ++ es) u' /\ leaves_ok (length H) es /\
    (forall v t, In (v, t) es -> lone H lambda v t /\ conn (ps ++ es) v t) /\
    (forall S, proper (length H) S -> hcut H S = lambda -> agree es S -> forall a b, conn (ps ++ es) a b -> S a = S b) /\
    (es <> [] -> cnt u' < length H).
Proof.
  intros Ec U L Iu K. rewrite Ec. destruct (guaranteed_ok lambda H U (seq 0 (length H)) u ps []) as (u' & es & E & I' & N' & F & Lt); auto.
  { apply seq_NoDup. } { intros x I. apply in_seq in I. lia. }
  exists u', es. split; [exact E|]. split; [auto|].
  assert (Rng : forall v t, In (v, t) es -> v < length H /\ t < length H /\ v <> t).
  { intros v t I. destruct (F v t I) as [Iv Row]. apply in_seq in Iv. pose proof (proj1 U v t lambda) as X. rewrite Row in X. destruct (X (or_introl eq_refl)). repeat split; auto. lia. }
  split; [|split; [|split]].
  - split; [auto|]. intros v t I. destruct (Rng v t I) as (Hv & Ht & Nvt). split; [auto|]. split; [auto|]. split; [auto|]. intro It.
    apply in_map_iff in It. destruct It as [[t' s] [Et Is]]. cbn in Et. subst t'. destruct (F v t I) as [_ Rv]. destruct (F t s Is) as [_ Rt].
    destruct (Rng t s Is) as (_ & Hs & Nts).
    assert (Sv : s = v).
    { assert (W : wt H v t = lambda) by (unfold wt; rewrite Rv; cbn; rewrite Nat.eqb_refl; cbn; lia). rewrite (proj2 U v t Hv Ht) in W. unfold wt in W. rewrite Rt in W. cbn in W. destruct (Nat.eqb_spec s v); [auto|]. cbn in W. lia. }
    subst s. pose proof (leaf_pair H v t U L Hv Rv Rt) as L2.
    (* the second of the two was recorded with one set left *)
    assert (X : forall a b l1 l2, (a = v /\ b = t \/ a = t /\ b = v) -> es = l1 ++ (a, b) :: l2 -> In (b, a) l1 -> False).
    { intros a b l1 l2 Hab Ees Il. destruct (Lt l1 a b l2 Ees) as (u1 & I1 & C1).
      assert (cnt u1 <= 1); [|lia]. apply (cnt_one _ _ _ a I1); [destruct Hab as [[-> _]|[-> _]]; auto|]. intros x Hx.
      assert (Hx' : x = a \/ x = b) by (destruct Hab as [[-> ->]|[-> ->]]; lia). destruct Hx' as [->| ->]; [apply conn_refl|]. apply conn_pair. apply in_or_app. right. auto. }
    destruct (in_split _ _ I) as (l1 & l2 & Ees). rewrite Ees in Is. apply in_app_or in Is. destruct Is as [Is|[Is|Is]].
    + apply (X v t l1 l2); auto.
    + congruence.
    + destruct (in_split _ _ Is) as (l3 & l4 & E2). apply (X t v (l1 ++ (v, t) :: l3) l4); auto.
      * rewrite Ees, E2, <- app_assoc. reflexivity.
      * apply in_or_app. right. left. auto.
  - intros v t I. destruct (Rng v t I) as (Hv & _). destruct (F v t I) as [_ Row]. split; [apply leaf_lone; auto|]. apply conn_pair. apply in_or_app. auto.
  - intros S PS ES AS a b Cab. revert a b Cab. apply (conn_in_relation (ps ++ es) (fun a b => S a = S b)); [auto|auto|intros; congruence|].
    intros x y I. apply in_app_or in I. destruct I as [I|I]; [apply (K S PS ES); auto|apply AS; auto].
  - intros Ne. destruct es as [|[v t] es]; [congruence|]. destruct (Rng v t (or_introl eq_refl)) as (Hv & Ht & Nvt).
    apply (cnt_lt _ _ _ v t I' Hv Ht Nvt). apply conn_pair. apply in_or_app. right. left. auto.
Qed.
End Round.

Lemma max_degree_le G B : (forall v, v < length G -> (deg G v <= B)%N) -> (max_degree G <= B)%N.
Proof.
  intros H. destruct (max_degree_in G) as [E|(v & Hv & E)]; rewrite E; [lia|auto].
Qed.
Lemma cnt_same n ps u u' : inv n ps u -> inv n ps u' -> cnt u = cnt u'.
Proof.
  intros A B. apply (classes_unique n (conn ps)); [intros; apply conn_sym; auto|intros; eapply conn_trans; eauto| |]; apply inv_classes; auto.
Qed.

Section Loop.
Context (cf : cfg) (G0 : graph) (lambda : N) (U0 : undirected G0) (Pl : (0 < lambda)%N) (Lw : low lambda G0) (Np : noparallel G0) (Tot : (total G0 + 1 < 4294967296)%N) (Lt : (lambda <= total G0)%N).

Record okst (s : fam) (b : bool) : Prop := mk_okst {
  ok_ch : chain lambda G0 (f_maps s) (f_ge s) (f_g s) b;
  ok_cut : f_cut s = lambda;
  ok_low : low lambda (f_g s);
  ok_np : noparallel (f_g s);
  ok_pos : 0 < length (f_g s) }.

Lemma ok_und s b : okst s b -> undirected (f_g s).
Proof. intros O. apply (hier_ok _ _ _ U0 (chain_hier _ _ _ _ _ _ (ok_ch _ _ O))). Qed.
Lemma ok_deg s b v : okst s b -> v < length (f_g s) -> (deg (f_g s) v <= total G0)%N.
Proof. intros O. apply (hier_deg_total _ _ _ _ U0 (chain_hier _ _ _ _ _ _ (ok_ch _ _ O))). Qed.

(** some vertex has degree at most lambda *)
Definition stuck (H : graph) : Prop := exists v, v < length H /\ (deg H v <= lambda)%N.

Lemma upd_ok H : undirected H -> low lambda H -> (if 1 <? length H then N.min lambda (min_degree H) else lambda) = lambda.
Proof. intros. apply upd_cut; auto. assert (X : (u64max = 18446744073709551615)%N) by reflexivity. lia. Qed.

Lemma pr_contract s b ord u ps : perm_ord ord -> okst s b -> inv (length (f_g s)) ps u ->
  (forall S, proper (length (f_g s)) S -> hcut (f_g s) S = lambda -> forall x y, conn ps x y -> S x = S y) ->
  exists s' b', fam_contract ord s u = Some s' /\ okst s' b' /\ ((length (f_g s') < length (f_g s) /\ b' = true) \/ (s' = s /\ b' = b)).
Proof.
  intros Po O Iu K. unfold fam_contract. destruct (Nat.ltb_spec (uf_n u) (length (f_g s))) as [L|L].
  - destruct (contract_step lambda ord (f_g s) ps u [] Po (ok_und _ _ O) Iu) as (H' & m & E & St & LH).
    + split; [constructor|]. intros v t [].
    + intros v t [].
    + intros S PS ES _ x y C. apply (K S PS ES x y C).
    + rewrite E. assert (Lw' : low lambda H') by (apply (step_low lambda _ _ _ _ St (ok_low _ _ O))).
      eexists _, true. split; [reflexivity|]. split; [|left; cbn [f_g]; unfold uf_n in L; split; [lia|auto]].
      constructor; cbn [f_maps f_ge f_g f_cut].
      * eapply ch_pr; [apply (ok_ch _ _ O)|exact St].
      * rewrite (ok_cut _ _ O). apply upd_ok; auto. apply St.
      * auto.
      * apply St.
      * rewrite LH. apply (cnt_pos _ _ _ Iu (ok_pos _ _ O)).
  - exists s, b. auto.
Qed.

Lemma round_ok rnd ord s : (forall i, perm_ord (ord i)) -> okst s true ->
  exists s', fam_round cf rnd ord s = Some s' /\
    ((length (f_g s') < length (f_g s) /\ okst s' true) \/ (f_g s' = f_g s /\ okst s' false /\ stuck (f_g s'))).
Proof.
  intros Po O. unfold fam_round. set (H := f_g s) in *. pose proof (ok_und _ _ O) as UH. fold H in UH. pose proof (ok_pos _ _ O) as PH. fold H in PH. pose proof (ok_low _ _ O) as LH. fold H in LH.
  rewrite (ok_cut _ _ O).
  assert (KL : (key_limit cf H (lambda + 1) < 4294967296)%N).
  { unfold key_limit. destruct (cfg_nolimit cf); [|lia]. assert (max_degree H <= total G0)%N; [|lia]. apply max_degree_le. intros v Hv. apply (ok_deg _ _ v O Hv). }
  destruct (capforest_good cf rnd H (lambda + 1) UH PH KL) as (u0 & ps & E0 & I0 & P0 & Pr). rewrite E0.
  destruct (guaranteed_step lambda Pl lambda H u0 ps eq_refl UH LH I0) as (u & es & E1 & I1 & Le & Lo & Co & Sm).
  { intros S PS ES a b I. destruct (Bool.bool_dec (S a) (S b)) as [|D]; auto. exfalso. pose proof (P0 a b I S D) as X. unfold hcut in ES. lia. }
  rewrite E1.
  set (s0 := mk_fam (f_maps s) H lambda (f_ge s ++ [(length (f_maps s), es)])).
  assert (X1 : exists s1 b1, fam_contract (ord 0) s0 u = Some s1 /\ okst s1 b1 /\ ((length (f_g s1) < length H /\ b1 = true) \/ (f_g s1 = H /\ b1 = false /\ stuck H))).
  { unfold fam_contract. cbn [s0 f_g]. destruct (Nat.ltb_spec (uf_n u) (length H)) as [L|L].
    - destruct (contract_step lambda (ord 0) H (ps ++ es) u es (Po 0) UH I1 Le Lo Co) as (H' & m & E & St & LH'). rewrite E.
      assert (Lw' : low lambda H') by (apply (step_low lambda _ _ _ _ St LH)). cbn [s0 f_maps f_cut f_ge].
      eexists _, true. split; [reflexivity|]. split; [|left; cbn [f_g]; unfold uf_n in L; split; [lia|auto]].
      constructor; cbn [f_maps f_ge f_g f_cut].
      + apply ch_rec with (H := H); [apply (ok_ch _ _ O)|exact St].
      + apply upd_ok; auto. apply St.
      + auto.
      + apply St.
      + rewrite LH'. apply (cnt_pos _ _ _ I1 PH).
    - unfold uf_n in L. assert (Ee : es = []) by (destruct es; auto; exfalso; assert (cnt u < length H) by (apply Sm; discriminate); lia).
      exists s0, false. split; [auto|]. split; [|right; split; [auto|split; [auto|]]].
      + constructor; cbn [s0 f_maps f_ge f_g f_cut]; auto.
        * rewrite Ee. apply ch_none. apply (ok_ch _ _ O).
        * apply (ok_np _ _ O).
      + rewrite Ee, app_nil_r in I1. pose proof (cnt_same _ _ _ _ I0 I1) as Ec.
        destruct (existsb (fun v => deg H v <=? lambda)%N (seq 0 (length H))) eqn:Q.
        * apply existsb_exists in Q. destruct Q as (v & Hv & Ev). apply in_seq in Hv. apply N.leb_le in Ev. exists v. split; [lia|auto].
        * exfalso. assert (cnt u0 < length H); [|lia]. apply Pr; [lia|]. intros v Hv. destruct (N.le_gt_cases (deg H v) lambda) as [Z|Z]; [|lia]. exfalso.
          assert (existsb (fun v => deg H v <=? lambda)%N (seq 0 (length H)) = true); [|congruence]. apply existsb_exists. exists v. split; [apply in_seq; lia|apply N.leb_le; auto]. }
  destruct X1 as (s1 & b1 & F1 & O1 & D1). fold s0. rewrite F1. rewrite (ok_cut _ _ O1).
  destruct (pr_tests12_ok (f_g s1) (lambda + 1) true (ok_und _ _ O1)) as (u12 & ps12 & E12 & I12 & K12). rewrite E12.
  assert (Sn : sane12 (f_g s1) (lambda + 1) true). { split; [|auto]. intros v Hv. pose proof (ok_deg _ _ v O1 Hv). lia. }
  destruct (pr_contract s1 b1 (ord 1) u12 ps12 (Po 1) O1 I12) as (s2 & b2 & F2 & O2 & D2).
  { intros S PS ES x y C. apply (good_conn (f_g s1) (lambda + 1) ps12 x y); auto. apply below_lambda; auto. apply (ok_low _ _ O1). }
  rewrite F2, (ok_cut _ _ O2).
  destruct (pr_tests34_ok (f_g s2) (lambda + 1) true (ok_und _ _ O2)) as (u34 & ps34 & bs & con & E34 & I34 & K34). rewrite E34.
  specialize (K34 (conj (ok_np _ _ O2) (or_introl eq_refl))).
  destruct (pr_contract s2 b2 (ord 2) u34 ps34 (Po 2) O2 I34) as (s3 & b3 & F3 & O3 & D3).
  { intros S PS ES x y C. apply (okp_all _ _ true con ps34 bs K34 eq_refl x y C). apply below_lambda; auto. apply (ok_low _ _ O2). }
  rewrite F3, (ok_cut _ _ O3). rewrite N.ltb_irrefl.
  assert (E3 : mk_fam (f_maps s3) (f_g s3) lambda (f_ge s3) = s3) by (rewrite <- (ok_cut _ _ O3); destruct s3; reflexivity). rewrite E3. exists s3. split; [auto|].
  assert (D : (length (f_g s3) < length H /\ b3 = true) \/ (f_g s3 = H /\ b3 = false /\ stuck H)).
  { destruct D3 as [[L3 B3]|[Q3 B3]]; [left|rewrite Q3, B3; clear Q3 B3]; (destruct D2 as [[L2 B2]|[Q2 B2]]; [|rewrite Q2, ?B2 in *; clear Q2]); destruct D1 as [[L1 B1]|(Q1 & B1 & St)]; try rewrite Q1 in *; try (split; [lia|auto]; fail).
    all: try (left; split; [lia|auto]; fail). all: try (left; split; auto; fail). right. auto. }
  destruct D as [[L B]|(Q & B & St)]; rewrite B in O3; [left; auto|right]. split; [auto|]. split; [auto|]. rewrite Q. auto.
Qed.

Lemma shrink_continues (n n' : nat) : n' < n -> n <= 100 -> (101 * N.of_nat n' < 100 * N.of_nat n)%N.
Proof. lia. Qed.
Lemma same_stops (n : nat) (prev : N) : prev = N.of_nat n -> (101 * N.of_nat n <? 100 * prev)%N = false.
Proof. intros ->. apply N.ltb_ge. lia. Qed.

Lemma loop_ok rnd ord : (forall k i, perm_ord (ord k i)) -> forall fuel prev s, length (f_g s) < fuel -> okst s true ->
  exists s' b, fam_loop fuel cf rnd ord prev s = Some s' /\ okst s' b /\ length (f_g s') <= length (f_g s) /\
    ((101 * N.of_nat (length (f_g s)) < 100 * prev)%N -> length (f_g s) <= 100 -> stuck (f_g s')).
Proof.
  intros Po. induction fuel as [|fuel IH]; intros prev s Lf O; [lia|]. cbn [fam_loop].
  destruct (N.ltb_spec (101 * N.of_nat (length (f_g s))) (100 * prev)) as [C|C].
  2:{ exists s, true. split; [auto|]. split; [auto|]. split; [auto|]. intros C' _. lia. }
  destruct (round_ok (rnd (S fuel)) (ord (S fuel)) s (Po _) O) as (s1 & E1 & [[L1 O1]|(Q1 & O1 & St)]); rewrite E1.
  - destruct (IH (N.of_nat (length (f_g s))) s1 ltac:(lia) O1) as (s' & b & E & O' & L' & St). exists s', b. split; [auto|]. split; [auto|]. split; [lia|].
    intros _ S100. apply St; [|lia]. apply shrink_continues; auto.
  - exists s1, false. split; [|split; [auto|split; [rewrite Q1; auto|auto]]].
    destruct fuel; cbn [fam_loop]; rewrite same_stops by (rewrite Q1; auto); auto.
Qed.

Lemma reduce_ok rnd nrnd ord nord : (forall k i, perm_ord (ord k i)) -> (forall r, perm_ord (nord r)) -> 0 < length G0 ->
  exists s b, fam_reduce cf rnd nrnd ord nord lambda G0 = Some s /\ chain lambda G0 (f_maps s) (f_ge s) (f_g s) b /\ 0 < length (f_g s) <= length G0 /\ noparallel (f_g s) /\
    (lambda <= f_cut s)%N /\ (2 <= length (f_g s) -> mincut_of (f_g s) (f_cut s)) /\ (length G0 <= 100 -> f_cut s = lambda).
Proof.
  intros Po Pn PG. unfold fam_reduce.
  assert (O0 : okst (mk_fam [] G0 lambda []) true) by (constructor; cbn; auto; constructor).
  destruct (loop_ok rnd ord Po (S (length G0)) 4294967295 (mk_fam [] G0 lambda [])) as (s & b & E & O & L & St); [cbn; lia|auto|]. cbn [f_g] in *. rewrite E.
  destruct (Nat.ltb_spec 1 (length (f_g s))) as [L2|L2].
  - assert (Hy : if cfg_nolimit cf then (total (f_g s) < 2 ^ 32)%N else (min_degree (f_g s) < 2 ^ 32)%N).
    { change (2 ^ 32)%N with 4294967296%N. destruct (cfg_nolimit cf).
      - pose proof (hier_total _ _ _ U0 (chain_hier _ _ _ _ _ _ (ok_ch _ _ O))). lia.
      - destruct (min_degree_ok (f_g s)) as (_ & M & _). specialize (M 0 (ok_pos _ _ O)). pose proof (ok_deg _ _ 0 O (ok_pos _ _ O)). lia. }
    destruct (C13_noi_exact_partial cf nrnd nord (f_g s) Pn (ok_und _ _ O) ltac:(lia) Hy) as (c & marks & En & Mc). rewrite En.
    exists (mk_fam (f_maps s) (f_g s) c (f_ge s)), b. cbn [f_maps f_g f_ge f_cut]. split; [auto|]. split; [apply (ok_ch _ _ O)|]. split; [split; [apply (ok_pos _ _ O)|auto]|]. split; [apply (ok_np _ _ O)|].
    assert (Lc : (lambda <= c)%N). { destruct Mc as [[S [PS ES]] _]. rewrite <- ES. apply (ok_low _ _ O S PS). }
    split; [auto|]. split; [auto|]. intros S100. destruct (St ltac:(lia) S100) as (v & Hv & Dv). destruct Mc as [_ Mc].
    pose proof (Mc _ (proper_single (length (f_g s)) v L2 Hv)) as X. rewrite <- deg_cut in X by (auto; apply (ok_und _ _ O)). lia.
  - exists s, b. split; [auto|]. split; [apply (ok_ch _ _ O)|]. split; [split; [apply (ok_pos _ _ O)|auto]|]. split; [apply (ok_np _ _ O)|]. rewrite (ok_cut _ _ O). split; [lia|]. split; [lia|auto].
Qed.
End Loop.
