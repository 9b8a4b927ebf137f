(* P_Mutable7.v - proofs about mutable_graph: contractVertexSet as a whole. *)
From Verif Require Import SpecCut P_Cut P_Mutable P_Mutable2 P_Mutable3 P_Mutable4 P_Mutable5 P_Mutable6 M_Mutable.
From Coq Require Import Sorting.Sorted Sorting.Permutation.

Lemma insert_desc_perm x l : Permutation (insert_desc x l) (x :: l).
Proof.
  induction l as [|y l IH]; [apply Permutation_refl|]. cbn. destruct (y <=? x); [apply Permutation_refl|].
  rewrite IH. apply perm_swap.
Qed.
Lemma sort_desc_perm l : Permutation (sort_desc l) l.
Proof. induction l as [|x l IH]; [constructor|]. cbn. fold (sort_desc l). rewrite insert_desc_perm. constructor. auto. Qed.

Lemma insert_desc_sorted x l : StronglySorted (fun a b => b < a) l -> ~ In x l -> StronglySorted (fun a b => b < a) (insert_desc x l).
Proof.
  induction l as [|y l IH]; intros SS Nx; [constructor; constructor|]. cbn. inversion SS as [|? ? SS' All]. subst. rewrite Forall_forall in All.
  destruct (Nat.leb_spec y x) as [Le|Gt].
  - constructor; [auto|]. rewrite Forall_forall. intros z Hz. assert (y <> x) by (intros ->; apply Nx; left; auto).
    destruct Hz as [<-|Hz]; [lia|]. apply All in Hz. lia.
  - constructor; [apply IH; [auto|intro; apply Nx; right; auto]|]. rewrite Forall_forall. intros z Hz.
    apply (Permutation_in _ (insert_desc_perm x l)) in Hz. destruct Hz as [<-|Hz]; [lia|auto].
Qed.
Lemma sort_desc_sorted l : NoDup l -> StronglySorted (fun a b => b < a) (sort_desc l).
Proof.
  induction l as [|x l IH]; intro ND; [constructor|]. inversion ND. subst. cbn. fold (sort_desc l). apply insert_desc_sorted; [auto|].
  intro X. apply (Permutation_in _ (sort_desc_perm l)) in X. contradiction.
Qed.

Lemma fold_min_le xs : forall x, fold_left Nat.min xs x <= x /\ (forall y, In y xs -> fold_left Nat.min xs x <= y) /\
  (fold_left Nat.min xs x = x \/ In (fold_left Nat.min xs x) xs).
Proof.
  induction xs as [|a xs IH]; intro x; [cbn; split; [auto|]; split; [intros y []|auto]|]. cbn [fold_left].
  destruct (IH (Nat.min x a)) as [A [B C]]. split; [lia|]. split.
  - intros y [<-|Hy]; [lia|auto].
  - destruct C as [C|C]; [|right; right; auto]. rewrite C. destruct (Nat.min_spec x a) as [[_ E]|[_ E]]; rewrite E; [auto|right; left; auto].
Qed.

Lemma ls_pred R (p : nat -> bool) u : valid_rows R ->
  ls nodead R (fun t w => if p t then w else 0%N) u = bsum (length R) (fun v => if p v then wt (adj R) u v else 0%N).
Proof.
  intro V. pose proof (proj2 (linked_valid R) V) as L. unfold ls.
  rewrite (bsum_ext (length R) _ (fun v => bsum (rl R u) (fun e => if Nat.eqb v (match slot R u e with Some (t, _, _) => t | None => 0 end) then
     (match slot R u e with Some (t, w, _) => if p t then w else 0%N | None => 0%N end) else 0%N))).
  - rewrite bsum_swap. apply bsum_ext. intros e He. unfold val, nodead. destruct (slot_some R u e He) as (t & w & r & S). rewrite S.
    rewrite (bsum_single (length R) (fun _ => if p t then w else 0%N)); [reflexivity|]. apply (L u e t w r S eq_refl).
  - intros v Hv. rewrite wt_ls. unfold ls. destruct (p v) eqn:P.
    + apply bsum_ext. intros e He. unfold val, nodead, fw. destruct (slot R u e) as [[[t w] r]|]; [|destruct (v =? 0); reflexivity].
      rewrite Nat.eqb_sym. destruct (Nat.eqb_spec v t) as [->|]; [rewrite P; reflexivity|reflexivity].
    + symmetry. apply bsum_zero. intros e He. destruct (slot R u e) as [[[t w] r]|]; [|destruct (v =? 0); reflexivity].
      destruct (Nat.eqb_spec v t) as [->|]; [rewrite P; reflexivity|reflexivity].
Qed.

Lemma set_sum (inS : nat -> bool) n l (c : nat -> N) : NoDup l -> (forall u, In u l <-> u < n /\ inS u = true) ->
  bsum n (fun u => if inS u then c u else 0%N) = sumN c l.
Proof.
  intros ND H. unfold bsum. rewrite <- sumN_filter. apply sumN_perm. apply NoDup_Permutation; [apply NoDup_filter, seq_NoDup|auto|].
  intro u. rewrite filter_In, in_seq, H. split; intros [A B]; split; auto; lia.
Qed.

Theorem contract_set_ok G vset : mvalid G -> NoDup vset -> length (m_part G) = m_n G -> length (m_cut G) = m_n G ->
  exists G' f, m_contract_set G vset = Some G' /\ mvalid G' /\
    length (m_part G') = m_n G' /\ length (m_cut G') = m_n G' /\
    clustering (m_n G) f (m_n G') /\ merges (m_n G) (fun x => In x vset) f /\
    contraction_of (m_n G) (wt (adj (m_rows G))) f (m_n G') (wt (adj (m_rows G'))) /\
    (groups_exact (m_n G) (m_cont G) (m_pos G) ->
       groups_exact (m_n G') (m_cont G') (m_pos G') /\ length (m_pos G') = length (m_pos G) /\
       forall x, x < length (m_pos G) -> nth x (m_pos G') 0 = f (nth x (m_pos G) 0)).
Proof.
  intros MV ND LP LC. set (n := m_n G) in *. unfold m_contract_set. fold n. set (vec := filter (fun i => i <? n) vset).
  assert (Hvec : forall u, In u vec <-> u < n /\ In u vset).
  { intro u. unfold vec. rewrite filter_In, Nat.ltb_lt. tauto. }
  assert (NDv : NoDup vec) by (apply NoDup_filter; auto).
  (* at most one vertex *)
  assert (TRIV : (forall u v, In u vec -> In v vec -> u = v) ->
    exists G' f, Some G = Some G' /\ mvalid G' /\ length (m_part G') = m_n G' /\ length (m_cut G') = m_n G' /\
      clustering n f (m_n G') /\ merges n (fun x => In x vset) f /\
      contraction_of n (wt (adj (m_rows G))) f (m_n G') (wt (adj (m_rows G'))) /\
      (groups_exact n (m_cont G) (m_pos G) ->
         groups_exact (m_n G') (m_cont G') (m_pos G') /\ length (m_pos G') = length (m_pos G) /\
         forall x, x < length (m_pos G) -> nth x (m_pos G') 0 = f (nth x (m_pos G) 0))).
  { intro U. exists G, (fun x => x). split; [reflexivity|]. split; [auto|]. split; [auto|]. split; [auto|]. split; [split; [auto|intros p Hp; eauto]|].
    split; [intros u v Hu Hv; split; [auto|intros [->|[A B]]; [auto|apply U; apply Hvec; auto]]|]. split; [|auto].
    intros p q Hp Hq Npq. fold n in Hp, Hq.
    rewrite (bsum_ext n _ (fun u => if Nat.eqb u p then wt (adj (m_rows G)) p q else 0%N)).
    - rewrite (bsum_single n (fun _ => wt (adj (m_rows G)) p q) p Hp). reflexivity.
    - intros u Hu. destruct (Nat.eqb_spec u p) as [->|]; cbn [andb].
      + rewrite (bsum_single n (fun v => wt (adj (m_rows G)) p v) q Hq). reflexivity.
      + apply bsum_zero. reflexivity. }
  destruct vec as [|x xs] eqn:EV; [apply TRIV; intros u v []|].
  destruct xs as [|y xs'] eqn:EX.
  { apply TRIV. intros u v [<-|[]] [<-|[]]. reflexivity. }
  clear TRIV. rewrite <- EX in *. clear EX. rewrite <- EV in *. clear y xs'.
  destruct MV as [V [DG CN]]. set (R := m_rows G) in *. assert (NR : length R = n) by reflexivity.
  pose proof (proj2 (linked_valid R) V) as L. apply deg_ls in DG. destruct DG as [LD DG]. apply cnt_ls in CN.
  set (first := fold_left Nat.min xs x). set (rest := filter (fun i => negb (i =? first)) vec). set (inS := fun t => existsb (Nat.eqb t) vset).
  assert (Ifirst : In first vec /\ forall u, In u vec -> first <= u).
  { destruct (fold_min_le xs x) as [A [B C]]. fold first in A, B, C. rewrite EV. split.
    - destruct C as [C|C]; [left; auto|right; auto].
    - intros u [<-|Hu]; auto. }
  destruct Ifirst as [Ifirst Mfirst]. assert (Hf : first < n) by (apply Hvec in Ifirst; tauto).
  assert (HS : forall u, inS u = true <-> In u vset) by (intro u; apply existsb_eqb_In).
  assert (first_in : inS first = true) by (apply HS; apply Hvec in Ifirst; tauto).
  assert (Hrest : forall u, In u rest <-> u < n /\ inS u = true /\ u <> first).
  { intro u. unfold rest. rewrite filter_In, Hvec, HS, negb_true_iff, Nat.eqb_neq. tauto. }
  assert (Hrest2 : forall u, In u rest -> first < u < n).
  { intros u Hu. pose proof (proj1 (Hrest u) Hu) as [A [B C]]. assert (first <= u) by (apply Mfirst, Hvec; rewrite <- HS; auto). lia. }
  assert (NDr : NoDup rest) by (apply NoDup_filter; rewrite EV; rewrite <- EV; auto).
  (* phase 1 *)
  destruct (split_first_ok inS first R first_in L ltac:(lia) n (rl R first) 0 [] (repeat None n) R (m_deg G) (m_ne G)) as (m1 & R1 & deg1 & E1 & LM1 & MI1 & N1 & RL1 & SL1 & LD1 & DO1 & DF1); auto.
  { apply repeat_length. } { intros t r i H. rewrite nth_repeat in H. discriminate. }
  { intros a b. destruct (slot R a b) as [[[t w] r]|]; [|reflexivity]. cbn. unfold relk. cbn [fst snd]. destruct (Nat.ltb_spec r 0); [lia|]. rewrite andb_false_r. reflexivity. }
  change (length (nth first R [])) with (rl R first). rewrite E1. clear E1.
  set (row := nth first R []) in *. set (ne1 := (m_ne G - N.of_nat (length (filter (fun h => negb (keeph inS h)) (skipn 0 row))))%N).
  destruct (split_linked inS first R first_in L ltac:(lia) R1 N1 RL1 SL1) as (LK1 & LS1 & T1 & RLa & NN1). fold row in LK1, LS1, T1, RLa, NN1.
  set (R1' := upd R1 first (filter (keeph inS) row)) in *.
  (* phase 2 *)
  set (T := tgt_of R). set (len := rl R). set (Da := D0 inS R) in *. set (Db := D1 inS first R) in *.
  assert (SKROW : skipn 0 row = row) by reflexivity. rewrite SKROW in *.
  assert (LSF : forall f, ls Da R f first = sumN (fun h => f (fst (fst h)) (snd (fst h))) (filter (keeph inS) row)).
  { intro f. rewrite sumN_filter, (@sumN_bsum half _ _ (0, 0%N, 0)). unfold ls, rl. fold row. apply bsum_ext. intros i Hi. unfold val.
    change (slot R first i) with (nth_error row i). destruct (nth_error row i) as [[[t w] r]|] eqn:Q; [|reflexivity].
    unfold Da. rewrite (D0_slot inS R first i t w r Q), first_in. unfold keeph. cbn. destruct (inS t); reflexivity. }
  assert (I1 : minvr inS first n T len Db R1' deg1 m1).
  { constructor; auto; try lia.
    - intros t rev ed2 Hm. destruct (MI1 t rev ed2 Hm) as [w Hw]. exists w. unfold R1'. rewrite slot_upd by lia. rewrite Nat.eqb_refl. exact Hw.
    - intros a b Ha. unfold Db, D1, D0. rewrite Ha. apply andb_false_r.
    - intro b. unfold Db, D1. rewrite Nat.eqb_refl. reflexivity.
    - intros a b t Ha Na HT Ht. unfold Db, D1, D0, into. fold T. rewrite HT, Ha, Ht. destruct (Nat.eqb_spec a first); [congruence|reflexivity].
    - rewrite DF1 by lia. rewrite LS1, LSF. unfold fd. rewrite DG by lia. rewrite ls_nodead. unfold fd. fold row.
      pose proof (sumN_split (fun h : half => snd (fst h)) (keeph inS) row) as Q1.
      assert (Q2 : sumN (fun h : half => snd (fst h)) (filter (fun h => negb (keeph inS h)) row) = sumN (fun x : half => if keeph inS x then 0%N else snd (fst x)) row).
      { rewrite sumN_filter. apply sumN_ext. intros h _. destruct (keeph inS h); reflexivity. }
      pose proof (sumN_filter (fun h : half => snd (fst h)) (keeph inS) row) as Q3. unfold half in *. lia.
    - intros u Iu Hu. rewrite DO1 by congruence. rewrite DG by auto. rewrite LS1. apply ls_D_ext. intros e _. unfold Da, D0. rewrite Iu. reflexivity. }
  assert (CNT : ne1 = (bsum n (ls Db R1' fc) + sumN (fun u => cnt_in inS T u 0 (len u)) rest)%N).
  { unfold ne1. rewrite CN, NR.
    rewrite (bsum_ext n (ls nodead R fc) (fun u => ls Db R1' fc u + (if inS u then cnt_in inS T u 0 (len u) else 0))%N).
    - rewrite bsum_add. rewrite (set_sum inS n (first :: rest) (fun u => cnt_in inS T u 0 (len u))).
      + cbn [sumN].
        assert (CF : cnt_in inS T first 0 (len first) = N.of_nat (length (filter (fun h => negb (keeph inS h)) row))).
        { rewrite <- sumN_const1, sumN_filter, (@sumN_bsum half _ _ (0, 0%N, 0)). unfold cnt_in, len, rl. fold row. apply bsum_ext. intros i Hi.
          unfold into, T, tgt_of. change (slot R first i) with (nth_error row i). destruct (nth_error row i) as [[[t w] r]|]; [|reflexivity].
          cbn. unfold keeph. cbn. rewrite negb_involutive. reflexivity. }
        rewrite CF, ?SKROW. unfold half in *. lia.
      + constructor; [|auto]. intro X. apply Hrest in X. tauto.
      + intro u. cbn. rewrite Hrest. split; [intros [<-|X]; tauto|]. intros [A B]. destruct (Nat.eq_dec u first); [left; auto|right; auto].
    - intros u Hu. rewrite LS1. destruct (inS u) eqn:Iu.
      + unfold ls, cnt_in, len. change (sumN (fun j => if into inS T u j then 1%N else 0%N) (seq 0 (rl R u))) with (bsum (rl R u) (fun j => if into inS T u j then 1%N else 0%N)).
        rewrite <- bsum_add. apply bsum_ext. intros i Hi. unfold val, nodead. destruct (slot_some R u i Hi) as (t & w & r & Q). rewrite Q.
        unfold Da. rewrite (D0_slot inS R u i t w r Q), Iu. unfold into, T, tgt_of. rewrite Q. cbn. destruct (inS t); reflexivity.
      + rewrite N.add_0_r. apply ls_D_ext. intros e _. unfold Da, D0. rewrite Iu. reflexivity. }
  destruct (merge_vertices_ok inS first first_in n T len rest R1' deg1 ne1 m1 Db I1 Hf NDr) as (R2 & deg2 & ne2 & D2 & E2 & [m2 I2] & DD2 & DO2 & NE2 & SS1 & SS2); auto.
  { intros u Hu. apply Hrest in Hu. tauto. }
  { intros u j Hu Hj. apply Hrest in Hu. destruct Hu as [A [B C]]. unfold Db, D1, D0. rewrite B. destruct (Nat.eqb_spec u first); [congruence|reflexivity]. }
  rewrite E2.
  (* phase 3 *)
  set (vs := sort_desc rest).
  assert (Hvs : forall u, In u vs <-> In u rest).
  { intro u. split; apply Permutation_in; [apply sort_desc_perm|apply Permutation_sym, sort_desc_perm]. }
  assert (N2 : length R2 = n) by apply (mi_n _ _ _ _ _ _ _ _ _ I2).
  assert (DM : forall a b, b < rl R2 a -> D2 a b = mem vs a b).
  { intros a b Hb. unfold mem. destruct (existsb (Nat.eqb a) vs) eqn:Q.
    - apply existsb_eqb_In in Q. apply Hvs in Q. apply DD2; [auto|]. pose proof (proj1 (Hrest a) Q) as [A [B C]]. rewrite <- (mi_len _ _ _ _ _ _ _ _ _ I2 a B C). auto.
    - apply mem_false in Q. rewrite Hvs in Q. rewrite DO2 by auto. unfold Db, D1. destruct (Nat.eqb_spec a first); [reflexivity|]. cbn [negb andb].
      unfold D0. destruct (inS a) eqn:Ia; [|reflexivity]. exfalso. apply Q, Hrest. split; [|auto]. apply rl_lt in Hb. lia. }
  assert (LSM : forall f u, ls D2 R2 f u = ls (mem vs) R2 f u) by (intros f u; apply ls_D_ext; intros; apply DM; auto).
  assert (LKM : linked (mem vs) R2) by (apply linked_ext with (D := D2); [auto|apply (mi_link _ _ _ _ _ _ _ _ _ I2)]).
  destruct (drop_vertices_ok first vs (with_rows G R2 deg2 ne2)) as (G' & f & rho & E3 & N3 & L3 & LS3 & LD3 & LP3 & LC3 & VV3 & CN3 & NE3 & NO3 & RH & F1 & F2 & F3 & F4 & GR3); unfold with_rows, m_n; proj; try rewrite N2; auto.
  { apply sort_desc_sorted. auto. } { intros v Hv. apply Hrest2, Hvs. auto. } { apply (mi_dlen _ _ _ _ _ _ _ _ _ I2). }
  unfold m_n, with_rows in VV3, N3, LS3, CN3, NE3, RH, F1, F2, GR3; proj. rewrite N2 in N3, CN3, RH, F1, F2, GR3. fold (m_n G') in VV3, N3, LS3, CN3, RH, F1, GR3.
  set (n' := m_n G') in *. set (R' := m_rows G') in *. assert (NR' : length R' = n') by reflexivity.
  assert (RHO : forall u, u < n' -> rho u < n /\ ~ In (rho u) rest /\ f (rho u) = u).
  { intros u Hu. destruct (RH u Hu) as [A [B C]]. rewrite Hvs in B. auto. }
  assert (OUT : forall u, u < n -> ~ In u rest -> u = first \/ inS u = false).
  { intros u Hu Nu. destruct (Nat.eq_dec u first); [auto|]. right. destruct (inS u) eqn:Iu; [|reflexivity]. exfalso. apply Nu, Hrest. auto. }
  assert (DEG : forall u, u < n -> ~ In u rest -> nth u deg2 0%N = ls D2 R2 fd u).
  { intros u Hu Nu. destruct (OUT u Hu Nu) as [->|Iu]; [apply (mi_dfirst _ _ _ _ _ _ _ _ _ I2)|apply (mi_dout _ _ _ _ _ _ _ _ _ I2); auto]. }
  assert (FE : forall u v, u < n -> v < n -> (f u = f v <-> rep inS first u = rep inS first v)).
  { assert (FR : forall u, u < n -> f u = f (rep inS first u) /\ rep inS first u < n /\ ~ In (rep inS first u) rest).
    { intros u Hu. unfold rep. destruct (inS u) eqn:Iu.
      - split; [|split; [auto|intro X; apply Hrest in X; tauto]]. destruct (Nat.eq_dec u first) as [->|]; [auto|]. rewrite F4. apply F3, Hvs, Hrest. auto.
      - split; [auto|]. split; [auto|]. intro X. apply Hrest in X. destruct X as [_ [X _]]. congruence. }
    intros u v Hu Hv. destruct (FR u Hu) as [A1 [A2 A3]]. destruct (FR v Hv) as [B1 [B2 B3]]. split; [|intro X; rewrite A1, B1, X; auto].
    intro X. rewrite <- (F2 (rep inS first u)) by (auto; rewrite Hvs; auto). rewrite <- (F2 (rep inS first v)) by (auto; rewrite Hvs; auto).
    rewrite <- A1, <- B1, X. reflexivity. }
  assert (REPO : forall u, u < n -> ~ In u rest -> rep inS first u = u).
  { intros u Hu Nu. unfold rep. destruct (OUT u Hu Nu) as [->|Iu]; [rewrite first_in|rewrite Iu]; reflexivity. }
  assert (FP : forall u p, u < n -> p < n' -> (f u =? p) = (rep inS first u =? rho p)).
  { intros u p Hu Hp. destruct (RHO p Hp) as [A [B C]]. apply eq_true_iff_eq. rewrite !Nat.eqb_eq. rewrite <- C at 1. rewrite FE by auto.
    rewrite (REPO (rho p)) by auto. tauto. }
  exists G', f. split; [exact E3|]. split; [split; [apply linked_valid; auto|split]|].
  { apply deg_ls. split; [auto|]. intros u Hu. change (length R') with n' in Hu. destruct (VV3 u Hu) as [A _]. rewrite A. destruct (RHO u Hu) as [B1 [B2 B3]].
    rewrite DEG by auto. rewrite LSM. fold R'. rewrite LS3 by auto. reflexivity. }
  { apply cnt_ls. rewrite NE3, NE2. fold R'. change (length R') with n'. rewrite CN3. apply bsum_ext. intros u _. apply LSM. }
  split; [auto|]. split; [auto|]. split.
  { split; [auto|]. intros p Hp. exists (rho p). destruct (RHO p Hp) as [A [B C]]. auto. }
  split.
  { intros u v Hu Hv. rewrite FE by auto. rewrite <- !HS. unfold rep. destruct (inS u) eqn:Iu, (inS v) eqn:Iv.
    - tauto.
    - split; [intro X; congruence|]. intros [X|[_ X]]; congruence.
    - split; [intro X; congruence|]. intros [X|[X _]]; congruence.
    - split; [auto|]. intros [X|[X _]]; congruence. }
  split; [|apply GR3].
  intros p q Hp Hq Npq. destruct (RHO p Hp) as [P1 [P2 P3]]. destruct (RHO q Hq) as [Q1 [Q2 Q3]]. set (P := rho p) in *. set (Q := rho q) in *.
  assert (NPQ : P <> Q) by congruence.
  transitivity (bsum n (fun u => bsum n (fun v => if (rep inS first u =? P) && (rep inS first v =? Q) then wt (adj R) u v else 0%N))).
  2: { apply bsum_ext. intros u Hu. apply bsum_ext. intros v Hv. rewrite !FP by auto. reflexivity. }
  rewrite wt_ls. fold R'. rewrite LS3 by auto. fold P.
  (* live targets are not in rest *)
  assert (LIVE : forall e t w r, slot R2 P e = Some (t, w, r) -> mem vs P e = false -> t < n /\ ~ In t rest).
  { intros e t w r S De. destruct (LKM P e t w r S De) as [A [B [C _]]]. split; [lia|]. unfold mem in C. apply mem_false in C. rewrite Hvs in C. auto. }
  destruct (OUT P P1 P2) as [EP|IP].
  - (* the merged vertex *)
    assert (IQ : inS Q = false) by (destruct (OUT Q Q1 Q2); [congruence|auto]).
    transitivity (ls (mem vs) R2 (fw Q) P).
    { apply ls_live_ext. intros e t w r S De. destruct (LIVE e t w r S De) as [A B]. unfold fw. rewrite FP by auto. fold Q. rewrite REPO by auto. reflexivity. }
    rewrite <- LSM.
    assert (X1 : ssum inS n D2 R2 (fw Q) = ls D2 R2 (fw Q) P).
    { unfold ssum. rewrite (bsum_ext n _ (fun u => if Nat.eqb u P then ls D2 R2 (fw Q) P else 0%N)).
      - apply (bsum_single n (fun _ => ls D2 R2 (fw Q) P) P P1).
      - intros u Hu. destruct (Nat.eqb_spec u P) as [->|Nu]; [rewrite EP, first_in; reflexivity|]. destruct (inS u) eqn:Iu; [|reflexivity].
        unfold ls. apply bsum_zero. intros e He. apply val_dead. apply DD2; [apply Hrest; split; [auto|split; [auto|congruence]]|].
        rewrite <- (mi_len _ _ _ _ _ _ _ _ _ I2 u Iu) by congruence. auto. }
    rewrite <- X1, (SS1 (fw Q) (lin_fw Q)). unfold ssum.
    apply bsum_ext. intros u Hu. rewrite LS1. destruct (inS u) eqn:Iu.
    + assert (RU : rep inS first u = P) by (unfold rep; rewrite Iu; auto). rewrite RU, Nat.eqb_refl. cbn [andb].
      transitivity (ls nodead R (fw Q) u).
      * unfold ls. apply bsum_ext. intros e He. unfold val. destruct (slot R u e) as [[[t w] r]|] eqn:S; [|reflexivity].
        unfold Da. rewrite (D0_slot inS R u e t w r S). unfold nodead, fw. destruct (Nat.eqb_spec t Q) as [->|]; [rewrite IQ, andb_false_r; reflexivity|].
        destruct (inS u && inS t); reflexivity.
      * rewrite <- wt_ls. rewrite (bsum_ext n _ (fun v => if Nat.eqb v Q then wt (adj R) u Q else 0%N)).
        -- rewrite (bsum_single n (fun _ => wt (adj R) u Q) Q Q1). reflexivity.
        -- intros v Hv. unfold rep. destruct (inS v) eqn:Iv.
           ++ destruct (Nat.eqb_spec first Q); [congruence|]. destruct (Nat.eqb_spec v Q) as [->|]; [congruence|reflexivity].
           ++ destruct (Nat.eqb_spec v Q) as [->|]; reflexivity.
    + symmetry. apply bsum_zero. intros v Hv. unfold rep. rewrite Iu. destruct (Nat.eqb_spec u P) as [->|]; [congruence|reflexivity].
  - transitivity (ls D2 R2 (fun t w => fw Q (rep inS first t) w) P).
    { rewrite LSM. apply ls_live_ext. intros e t w r S De. destruct (LIVE e t w r S De) as [A B]. unfold fw. rewrite FP by auto. reflexivity. }
    rewrite (SS2 (fw Q) P (lin_fw Q) IP), LS1.
    rewrite (ls_D_ext Da nodead) by (intros e _; unfold Da, D0; rewrite IP; reflexivity).
    unfold fw. rewrite (ls_pred R (fun t => rep inS first t =? Q) P V). rewrite NR.
    set (X := bsum n (fun v => if rep inS first v =? Q then wt (adj R) P v else 0%N)).
    transitivity (bsum n (fun u => if Nat.eqb u P then X else 0%N)); [symmetry; apply (bsum_single n (fun _ => X) P P1)|].
    apply bsum_ext. intros u Hu. destruct (Nat.eqb_spec u P) as [->|Nu].
    + rewrite (REPO P) by auto. rewrite Nat.eqb_refl. reflexivity.
    + symmetry. apply bsum_zero. intros v Hv. destruct (Nat.eqb_spec (rep inS first u) P) as [Y|]; [|reflexivity].
      exfalso. unfold rep in Y. destruct (inS u); congruence.
Qed.
