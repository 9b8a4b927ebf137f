(* P_LimFlow2.v - proofs about the limited push_relabel: the flag and the main loop. *)
From Verif Require Import SpecCut LibZ P_Mutable M_PushRelabel M_LimFlow P_Flow P_Flow2 P_Flow3 P_Bfs P_Flow4 P_Flow5 P_Flow6 P_LimFlow P_MutableIO.

Lemma enqueue_ex t s : p_ex (enqueue t s) = p_ex s.
Proof. unfold enqueue. destruct (nth t (p_ac s) false); [reflexivity|]. destruct (0 <? nth t (p_ex s) 0)%Z; reflexivity. Qed.
Lemma gap_ex n level s : p_ex (gap_heuristic n level s) = p_ex s.
Proof.
  unfold gap_heuristic. revert s. induction (seq 0 n) as [|v l IH]; intro s; [reflexivity|]. cbn [fold_left]. rewrite IH. unfold gap_node.
  destruct (nth v (p_ds s) 0 <? level); [reflexivity|]. cbv zeta. rewrite enqueue_ex. reflexivity.
Qed.
Lemma relabel_ex R v s : p_ex (relabel R v s) = p_ex s.
Proof. unfold relabel. cbv zeta. rewrite enqueue_ex. reflexivity. Qed.

Section Lim.
Context (R : list (list half)) (ts : list nat) (src snk : nat) (limit : Z) (V : valid_rows R).
Let n := length R.
Context (Hts : forall t, In t ts -> t < n) (Hsrc : In src ts) (Hnd : NoDup ts) (Hsnk : In snk ts) (Nss : snk <> src).

Notation ok b := (snd b = true -> Z.le limit (exc (fst b) snk)).

Lemma lim_push_eq v e sd s f : nth snk (p_ac s) false = true -> fst (lim_push snk limit R v e sd (s, f)) = push_edge R v e sd s.
Proof.
  intro A. unfold lim_push, push_edge. cbn [fst snd]. destruct (slot R v e) as [[[t w] r]|]; [|reflexivity]. destruct (sd <=? dist s t); [reflexivity|].
  destruct (Z.min _ _ =? 0)%Z; [reflexivity|]. set (s' := mk_prs _ _ _ _ _ _).
  destruct (Nat.eqb_spec t snk) as [->|N]; cbn [andb]; [|reflexivity]. destruct (limit <=? _)%Z; [|reflexivity]. unfold enqueue. cbn [s' p_ac]. rewrite A. reflexivity.
Qed.

Lemma lim_push_flag K v e sd s f : finv R src K (p_fl s) (p_ex s) -> v <> snk -> ok (s, f) ->
  ok (lim_push snk limit R v e sd (s, f)).
Proof.
  intros F Nv H. unfold lim_push. cbn [fst snd] in *. destruct (slot R v e) as [[[t w] r]|] eqn:Sl; [|exact H]. destruct (sd <=? dist s t); [exact H|].
  destruct (V v e t w r Sl) as [Ht [Nt _]]. destruct (slot_lt _ _ _ _ Sl) as [Hv _].
  pose proof (f_cap _ _ _ _ _ F v e t w r Sl) as C. pose proof (f_pos _ _ _ _ _ F v Hv) as P. pose proof (f_elen _ _ _ _ _ F) as L.
  destruct (Z.eqb_spec (Z.min (Z.of_N w - flo s v e) (exc s v)) 0%Z) as [|A]; [exact H|]. set (am := Z.min _ _) in *. assert (0 <= am)%Z by (unfold am; lia).
  destruct (Nat.eqb_spec t snk) as [->|N]; cbn [andb].
  - set (ex2 := upd _ snk _). assert (E : nth snk ex2 0%Z = (exc s snk + am)%Z).
    { unfold ex2. rewrite nth_upd_eq by (rewrite upd_length; lia). rewrite nth_upd_neq by auto. reflexivity. }
    destruct (Z.leb_spec limit (nth snk ex2 0%Z)) as [B|B]; cbn [fst snd p_ex]; [auto|]. intro Hf. specialize (H Hf). lia.
  - cbn [fst snd]. intro Hf. rewrite enqueue_ex. cbn [p_ex]. rewrite !nth_upd_neq by auto. auto.
Qed.

Lemma sink_active ex ac q hole : qinv n ts ex ac q hole -> nth snk ac false = true.
Proof. intro Q. apply (q_ac _ _ _ _ _ _ Q); auto. Qed.

Lemma lim_rounds_ok K v s f k : finv R src K (p_fl s) (p_ex s) -> qinv n ts (p_ex s) (p_ac s) (p_q s) v -> k <= rl R v -> v <> snk -> ok (s, f) ->
  let b := fold_left (lim_round snk limit R v (dist s v)) (seq 0 k) (s, f) in fst b = push_rounds R v k s /\ ok b.
Proof.
  intros F Q Hk Nv H. cbv zeta. induction k as [|k IH]; [cbn; auto|]. destruct (IH ltac:(lia)) as [E1 E2].
  destruct (push_rounds_ok R ts src V Hts K v s k F Q ltac:(lia)) as (PU & _). cbv zeta in PU.
  unfold push_rounds in *. rewrite seq_S, !fold_left_app. cbn [fold_left plus].
  set (b := fold_left (lim_round snk limit R v (dist s v)) (seq 0 k) (s, f)) in *. set (s1 := fold_left (push_round R v (dist s v)) (seq 0 k) s) in *.
  clearbody b s1. destruct b as [s1' f1]. cbn [fst snd] in E1, E2. subst s1'. unfold lim_round, push_round. cbn [fst].
  destruct (exc s1 v =? 0)%Z; [split; [reflexivity|exact E2]|]. split; [apply lim_push_eq; apply (sink_active _ _ _ _ (pu_q _ _ _ _ _ _ _ PU))|].
  apply (lim_push_flag K); auto. apply (pu_f _ _ _ _ _ _ _ PU).
Qed.

Lemma lim_discharge_ok K s v f : inv R ts src K s n -> In v (p_q s) -> ok (s, f) ->
  let b := lim_discharge snk limit R v (take v s, f) in fst b = discharge R v (take v s) /\ ok b.
Proof.
  intros I Hv H. cbv zeta. destruct (q_in _ _ _ _ _ _ (i_q _ _ _ _ _ _ I) v Hv) as [Vn Vt]. pose proof (take_ok R ts src Hts K s v I Hv) as [F L Q LI].
  assert (Nv : v <> snk) by (intro; subst; contradiction).
  destruct (lim_rounds_ok K v (take v s) f (rl R v) F Q ltac:(lia) Nv H) as [E1 E2]. cbv zeta in E1, E2.
  unfold lim_discharge, discharge. cbn [fst] in *. fold (rl R v) in *. destruct (fold_left _ (seq 0 (rl R v)) (take v s, f)) as [s1 f1]. cbn [fst snd] in E1, E2. rewrite <- E1.
  destruct (0 <? exc s1 v)%Z; [|split; [reflexivity|exact E2]].
  destruct ((nth (dist s1 v) (p_ct s1) 0 =? 1)%Z && (dist s1 v <? length R)); cbn [fst snd]; (split; [reflexivity|]).
  - rewrite gap_ex. exact E2. - rewrite relabel_ex. exact E2.
Qed.

Lemma lim_loop_ok K pick gl : (forall k q, q <> [] -> In (pick k q) q) ->
  forall fuel k s f s', pr_loop fuel pick gl k R ts src s = Some s' -> inv R ts src K s n -> ok (s, f) ->
  exists s1 st, (forall fuel', fuel <= fuel' -> lim_loop fuel' pick gl k snk limit R ts src (s, f) = Some (s1, st)) /\ inv R ts src K s1 n /\
    (st = false -> p_q s1 = []) /\ (st = true -> (limit <= exc s1 snk)%Z).
Proof.
  intro Hp. induction fuel as [|fuel IH]; intros k s f s' E I H; cbn [pr_loop] in E.
  - destruct (p_q s) as [|x q] eqn:Eq; [|discriminate E]. exists s, false. split; [|split; [auto|split; [auto|intro X; discriminate X]]].
    intros fuel' _. destruct fuel'; cbn [lim_loop fst]; rewrite Eq; reflexivity.
  - destruct (p_q s) as [|x q] eqn:Eq.
    { exists s, false. split; [|split; [auto|split; [auto|intro X; discriminate X]]]. intros fuel' _. destruct fuel'; cbn [lim_loop fst]; rewrite Eq; reflexivity. }
    assert (NE : p_q s <> []) by congruence. rewrite <- Eq in E. pose proof (Hp k (p_q s) NE) as Hv. set (v := pick k (p_q s)) in *.
    destruct (discharge_ok R ts src V Hts Hsrc K s v I Hv) as (I1 & _). cbv zeta in I1.
    destruct (lim_discharge_ok K s v f I Hv H) as [E1 E2]. cbv zeta in E1, E2.
    destruct (lim_discharge snk limit R v (take v s, f)) as [s1 f1] eqn:LD. cbn [fst snd] in E1, E2. subst s1.
    assert (ST : forall fuel', lim_loop (S fuel') pick gl k snk limit R ts src (s, f) =
      if f1 then Some (discharge R v (take v s), true) else match (if gl k then global_relabel false R ts src (discharge R v (take v s)) else Some (discharge R v (take v s))) with
            | None => None | Some s2 => lim_loop fuel' pick gl (S k) snk limit R ts src (s2, f1) end).
    { intro fuel'. cbn [lim_loop fst snd]. rewrite Eq. rewrite <- Eq. fold v. rewrite LD. reflexivity. }
    destruct f1.
    { exists (discharge R v (take v s)), true. split; [|split; [exact I1|split; [intro X; discriminate X|auto]]]. intros fuel' Hf. destruct fuel' as [|fuel']; [lia|]. apply ST. }
    assert (G : exists s2, (if gl k then global_relabel false R ts src (discharge R v (take v s)) else Some (discharge R v (take v s))) = Some s2 /\ inv R ts src K s2 n).
    { destruct (gl k); [|eauto]. destruct (global_ok R ts src V Hts Hsrc Hnd K _ I1) as (s2 & Eg & I2 & _). eauto. }
    destruct G as (s2 & E3 & I2). rewrite E3 in E. destruct (IH (S k) s2 false s' E I2 ltac:(cbn; congruence)) as (s3 & st & A & B). exists s3, st. split; [|exact B].
    intros fuel' Hf. destruct fuel' as [|fuel']; [lia|]. rewrite ST, E3. apply A. lia.
Qed.

Lemma lim_init_ok : let b := lim_init snk limit R ts src in fst b = pr_init R ts src /\ ok b.
Proof.
  assert (Hs : src < n) by auto. cbv zeta. unfold lim_init. fold n. change (pr_init R ts src) with (fold_left (init_edge R src) (seq 0 (rl R src)) (init0 R ts src)). fold (rl R src).
  change (mk_prs (zero_flow R) _ _ _ _ []) with (init0 R ts src).
  assert (G : forall k, k <= rl R src -> let b := fold_left (lim_init_edge snk limit R src) (seq 0 k) (init0 R ts src, false) in fst b = fold_left (init_edge R src) (seq 0 k) (init0 R ts src) /\ ok b).
  { induction k as [|k IH]; intro Hk; cbv zeta in *; [cbn; split; [reflexivity|congruence]|]. destruct (IH ltac:(lia)) as [E1 E2].
    destruct (init_prefix R ts src V Hts Hsrc k ltac:(lia)) as (F & _ & _ & Q & _). cbv zeta in *. rewrite seq_S, !fold_left_app. cbn [fold_left plus].
    set (b := fold_left (lim_init_edge snk limit R src) _ _) in *. set (s := fold_left (init_edge R src) _ _) in *. clearbody b s. destruct b as [s' f]. cbn [fst snd] in E1, E2. subst s'.
    unfold lim_init_edge, init_edge. cbn [fst snd]. destruct (slot R src k) as [[[t w] r]|]; [|split; [reflexivity|exact E2]].
    split; [apply lim_push_eq; cbn [p_ac]; apply (sink_active _ _ _ _ Q)|].
    apply (lim_push_flag (supply R src k + Z.of_N w)%Z); [cbn [p_fl p_ex]; apply (finv_supply R ts src Hts Hsrc); exact F|auto|].
    cbn [fst snd p_ex]. intro X. rewrite nth_upd_neq by auto. auto. }
  apply G. lia.
Qed.

(** the excess of a vertex is at most the weight of any cut around the source without it *)
Lemma excess_cut K s (S : nat -> bool) : inv R ts src K s n -> S src = true -> S snk = false -> (exc s snk <= Z.of_N (cutw n (wt (adj R)) S))%Z.
Proof.
  intros I Ss St. destruct I as [F L Q LI]. assert (Hs : src < n) by auto. assert (Hk : snk < n) by auto.
  pose proof (excess_sum R src K (p_fl s) (p_ex s) S F Hs) as E1. rewrite Ss in E1.
  pose proof (excess_sum R src K (p_fl s) (p_ex s) (fun _ => true) F Hs) as E2. cbn [andb negb] in E2.
  assert (O : out_flow R (p_fl s) (fun _ => true) = 0%Z) by (unfold out_flow; apply zsum_zero; intros; apply zsum_zero; reflexivity).
  rewrite O in E2. fold n in E1, E2. pose proof (out_flow_le R src K (p_fl s) (p_ex s) S F) as LE. fold n in LE.
  assert (E3 : (zsum n (fun u => if S u then exc s u else 0%Z) + exc s snk <= zsum n (fun u => exc s u))%Z).
  { rewrite <- (zsum_single n snk (fun u => exc s u)) by auto. rewrite <- zsum_add. apply zsum_le. intros u Hu. pose proof (f_pos _ _ _ _ _ F u Hu).
    destruct (Nat.eqb_spec u snk) as [->|N]; [rewrite St; lia|]. destruct (S u); lia. }
  lia.
Qed.
End Lim.

(** * The whole computation *)
Section Solve.
Context (R : list (list half)) (ts : list nat) (V : valid_rows R).
Let n := length R.
Context (Hts : forall t, In t ts -> t < n) (Hnd : NoDup ts).

(** the number of steps does not depend on the limit *)
Lemma lim_solve_all D pick gl i src : D <= n -> 2 <= length ts -> nth_error ts i = Some src -> (forall k q, q <> [] -> In (pick k q) q) ->
  exists fuel, forall limit, exists x fl, (forall fuel', fuel <= fuel' -> lim_solve D fuel' pick gl limit R ts i = Some (x, fl)) /\
    ((x = limit /\ forall S, S src = true -> (forall t, In t ts -> t <> src -> S t = false) -> (limit <= Z.of_N (cutw n (wt (adj R)) S))%Z) \/
     exists K s l, inv R ts src K s n /\ p_q s = [] /\ fl = p_fl s /\ x = total_flow ts src s /\ source_set R ts src (p_fl s) = Some l /\
       x = Z.of_N (cutw n (wt (adj R)) (mem l)) /\ In src l /\ (forall t, In t ts -> t <> src -> ~ In t l) /\
       forall S, S src = true -> (forall t, In t ts -> t <> src -> S t = false) -> (x <= Z.of_N (cutw n (wt (adj R)) S))%Z).
Proof.
  intros HD L2 Ei Hp. assert (Hsrc : In src ts) by (eapply nth_error_In; eauto).
  set (j := if i =? 1 then 0 else 1). destruct (nth_error ts j) as [snk|] eqn:Ej; [|apply nth_error_None in Ej; unfold j in Ej; destruct (i =? 1); lia].
  assert (Hsnk : In snk ts) by (eapply nth_error_In; eauto).
  assert (Nss : snk <> src).
  { intros ->. assert (i = j); [|unfold j in *; destruct (Nat.eqb_spec i 1); lia]. apply (proj1 (NoDup_nth_error ts) Hnd); [apply nth_error_Some; congruence|congruence]. }
  destruct (init_ok R ts src V Hts Hsrc) as (F & Ds & Ct & Q & Sat). cbv zeta in *.
  destruct (lim_relabel_ok R ts src V Hts Hsrc Hnd D _ (pr_init R ts src) HD ltac:(eauto) F Q Ct Sat) as (s0 & E1 & I0 & X0).
  destruct (loop_ok R ts src V Hts Hsrc Hnd _ pick gl Hp _ _ 0 s0 I0 (le_n _) (le_n _)) as (fuel & s' & H1 & _ & _).
  exists fuel. intro limit. destruct (lim_init_ok R ts src snk limit V Hts Hsrc Hsnk Nss) as [E0 F0]. cbv zeta in *.
  destruct (lim_init snk limit R ts src) as [si fi] eqn:Ein. cbn [fst snd] in E0, F0. subst si.
  destruct (lim_loop_ok R ts src snk limit V Hts Hsrc Hnd Hsnk Nss _ pick gl Hp fuel 0 s0 fi s' (H1 fuel (le_n _)) I0) as (s & st & A & I & B1 & B2).
  { cbn [fst snd]. rewrite X0. exact F0. }
  exists (if st then limit else total_flow ts src s), (p_fl s). split.
  - intros fuel' Hf. unfold lim_solve. assert (B : forallb (fun t => t <? length R) ts = true) by (apply forallb_forall; intros t Ht; apply Nat.ltb_lt; apply Hts; auto).
    rewrite B, Ei. cbn [negb]. fold j. rewrite Ej, Ein, E1, (A fuel' Hf). reflexivity.
  - destruct st.
    + left. split; [reflexivity|]. intros S Ss St. specialize (B2 eq_refl). pose proof (excess_cut R ts src snk Hts Hsrc Hsnk Nss _ s S I Ss (St snk Hsnk Nss)) as LE. fold n in LE. lia.
    + right. specialize (B1 eq_refl). destruct (source_set_ok R ts src V Hts Hsrc Hnd _ s I) as (l & Es & Nd & Ln & Ls & Lt & Sat' & Cn).
      assert (Ms : mem l src = true) by (apply mem_In; auto).
      assert (Mt : forall t, In t ts -> t <> src -> mem l t = false) by (intros; apply mem_out; auto).
      assert (TF : total_flow ts src s = Z.of_N (cutw n (wt (adj R)) (mem l))).
      { rewrite (value_ok R ts src Hts Hsrc Hnd _ s (mem l) I B1 Ms Mt). apply out_flow_eq. intros u v Hu Hv Su Sv e w r Sl. apply mem_In in Su. apply mem_out in Sv. eapply Sat'; eauto. }
      exists (supply R src (rl R src)), s, l. do 8 (split; [auto; fail|]). intros S Ss St.
      pose proof (value_ok R ts src Hts Hsrc Hnd _ s S I B1 Ss St) as E. pose proof (out_flow_le R src _ (p_fl s) (p_ex s) S (i_f _ _ _ _ _ _ I)) as LE. fold n in LE. lia.
Qed.
Lemma lim_solve_ok D pick gl limit i src : D <= n -> 2 <= length ts -> nth_error ts i = Some src -> (forall k q, q <> [] -> In (pick k q) q) ->
  exists fuel x fl, (forall fuel', fuel <= fuel' -> lim_solve D fuel' pick gl limit R ts i = Some (x, fl)) /\
    ((x = limit /\ forall S, S src = true -> (forall t, In t ts -> t <> src -> S t = false) -> (limit <= Z.of_N (cutw n (wt (adj R)) S))%Z) \/
     exists K s l, inv R ts src K s n /\ p_q s = [] /\ fl = p_fl s /\ x = total_flow ts src s /\ source_set R ts src (p_fl s) = Some l /\
       x = Z.of_N (cutw n (wt (adj R)) (mem l)) /\ In src l /\ (forall t, In t ts -> t <> src -> ~ In t l) /\
       forall S, S src = true -> (forall t, In t ts -> t <> src -> S t = false) -> (x <= Z.of_N (cutw n (wt (adj R)) S))%Z).
Proof.
  intros HD L2 Ei Hp. destruct (lim_solve_all D pick gl i src HD L2 Ei Hp) as (fuel & H). exists fuel. apply H.
Qed.
End Solve.
