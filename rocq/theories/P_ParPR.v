(* P_ParPR.v - every interleaving of the parallel Padberg-Rinaldi tests joins only pairs that may be joined. *)
From Verif Require Import SpecRel SpecCut SpecHier SpecPR M_UnionFind P_UnionFind M_PRTests M_ParPR P_Cut P_Contract P_Hier P_PR P_PRTests.

Lemma row_lt (G : graph) v e : In e (nth v G []) -> v < length G.
Proof. intro H. destruct (Nat.lt_ge_cases v (length G)) as [L|L]; [auto|]. rewrite nth_overflow in H by auto. contradiction. Qed.

Section Par.
Variable G : graph.
Variable limit : N.
Variable all : bool.
Variable strict : bool.
Hypothesis U : undirected G.
Let n := length G.
Let W := wt G.

(** every Union of the program is justified; [own]: flags this thread has set by compare-and-swap and not used yet *)
Inductive safe : list nat -> prog -> Prop :=
  | safe_done own : safe own PDone
  | safe_set own v p : safe own p -> safe own (PSet v p)
  | safe_fin own v p : safe own p -> safe own (PFin v p)
  | safe_read own v k : (forall b, safe own (k b)) -> safe own (PRead v k)
  | safe_cas own v k : v < n -> safe (v :: own) (k true) -> safe own (k false) -> safe own (PCas v k)
  | safe_good own a b p : good G limit a b -> safe own p -> safe own (PUni a b p)
  | safe_tri own a b x p : strict = false -> triangle G limit false a b x -> safe own p -> safe (b :: a :: own) (PUni a b p)
  | safe_weak own v p : safe own p -> safe (v :: own) p.

Lemma con_one (con : list bool) v u : length con = n -> nth u con false = true -> nth u (upd con v true) false = true.
Proof. intros L H. rewrite nth_upd. destruct ((u =? v) && (v <? length con)); auto. Qed.

Lemma con_new (con : list bool) v : length con = n -> v < n -> nth v (upd con v true) false = true.
Proof. intros L H. rewrite nth_upd, Nat.eqb_refl, L. apply Nat.ltb_lt in H. rewrite H. reflexivity. Qed.

(** owned flags are set, owned by one thread, and not used by an earlier Union *)
Record qinv (s : qst) (owns : list (list nat)) (bs : list (nat * nat)) : Prop := {
  v_len : length (q_con s) = n;
  v_thr : Forall2 safe owns (q_thr s);
  v_nd : NoDup (concat owns ++ ends bs);
  v_con : forall u, In u (concat owns ++ ends bs) -> nth u (q_con s) false = true;
  v_log : forall a b, In (a, b) (q_log s) -> good G limit a b \/ In (a, b) bs;
  v_tri : forall a b, In (a, b) bs -> exists x, triangle G limit false a b x;
  v_all : strict = true -> bs = [] }.

Lemma f2_split {A B} (R : A -> B -> Prop) l l' i d : Forall2 R l l' -> i < length l' ->
  exists l1 x l2 l1' l2', l = l1 ++ x :: l2 /\ l' = l1' ++ nth i l' d :: l2' /\ length l1' = i /\
    Forall2 R l1 l1' /\ R x (nth i l' d) /\ Forall2 R l2 l2'.
Proof.
  intros F. revert i. induction F as [|a b l l' r F IH]; intros i Hi; [simpl in Hi; lia|].
  destruct i as [|i].
  - exists [], a, l, [], l'. simpl. repeat split; auto.
  - simpl in Hi. destruct (IH i ltac:(lia)) as (l1 & x & l2 & l1' & l2' & E & E' & L & F1 & R1 & F2).
    exists (a :: l1), x, l2, (b :: l1'), l2'. cbn [nth app length]. rewrite <- E', <- E.
    split; [auto|]. split; [auto|]. split; [lia|]. split; [constructor; auto|]. auto.
Qed.

Lemma upd_split {A} (l1 : list A) x l2 y : upd (l1 ++ x :: l2) (length l1) y = l1 ++ y :: l2.
Proof. induction l1 as [|a l1 IH]; [reflexivity|]. cbn [app length upd]. rewrite IH. reflexivity. Qed.

Lemma f2_put {A B} (R : A -> B -> Prop) l1 l2 l1' l2' x y : Forall2 R l1 l1' -> R x y -> Forall2 R l2 l2' ->
  Forall2 R (l1 ++ x :: l2) (l1' ++ y :: l2').
Proof. intros. apply Forall2_app; auto. Qed.

(** dropping owned flags, or moving a pair of them to the used ones *)
Lemma in_mid {A} (u : A) c1 x c2 e : In u ((c1 ++ x ++ c2) ++ e) <-> In u x \/ In u (c1 ++ c2 ++ e).
Proof. rewrite !in_app_iff. tauto. Qed.
Lemma nd_mid {A} (c1 x c2 e : list A) : NoDup ((c1 ++ x ++ c2) ++ e) <-> NoDup (x ++ c1 ++ c2 ++ e).
Proof.
  assert (P : Permutation ((c1 ++ x ++ c2) ++ e) (x ++ c1 ++ c2 ++ e)).
  { rewrite <- !app_assoc. apply Permutation_app_swap_app. }
  split; intro H; [apply (Permutation_NoDup P); auto|apply (Permutation_NoDup (Permutation_sym P)); auto].
Qed.

Lemma step_ok s i owns bs : qinv s owns bs -> exists owns' bs', qinv (p_step s i) owns' bs'.
Proof.
  intros [L T ND C O Tr Al]. unfold p_step.
  destruct (Nat.lt_ge_cases i (length (q_thr s))) as [Hi|Hi].
  2: { rewrite nth_overflow by auto. exists owns, bs. constructor; auto. }
  destruct (f2_split safe owns (q_thr s) i PDone T Hi) as (o1 & own & o2 & t1 & t2 & Eo & Et & Li & F1 & Sf & F2).
  remember (nth i (q_thr s) PDone) as p eqn:Ep. clear Ep.
  assert (Put : forall q, upd (q_thr s) i q = t1 ++ q :: t2) by (intro q; rewrite Et, <- Li; apply upd_split).
  subst owns. rewrite concat_app in ND, C. cbn [concat] in ND, C.
  rewrite nd_mid in ND. assert (C' : forall u, In u own \/ In u (concat o1 ++ concat o2 ++ ends bs) -> nth u (q_con s) false = true).
  { intros u H. apply C. apply in_mid. auto. }
  clear C T Hi.
  revert ND C'. induction Sf as [own|own v p S1 _|own v p S1 _|own v k S1 _|own v k Hv S1 _ S2 _|own a b p Gd S1 _|own a b x p A Tx S1 _|own v p S1 IH];
    intros ND C'.
  - exists (o1 ++ own :: o2), bs. constructor; auto.
    + rewrite Et. apply f2_put; auto. constructor.
    + rewrite concat_app. cbn [concat]. rewrite nd_mid. auto.
    + intros u H. rewrite concat_app in H. cbn [concat] in H. apply in_mid in H. auto.
  - exists (o1 ++ own :: o2), bs. constructor; cbn; auto.
    + rewrite upd_length. auto.
    + rewrite Put. apply f2_put; auto.
    + rewrite concat_app. cbn [concat]. rewrite nd_mid. auto.
    + intros u H. rewrite concat_app in H. cbn [concat] in H. apply in_mid in H. apply con_one; auto.
  - exists (o1 ++ own :: o2), bs. constructor; cbn; auto.
    + rewrite Put. apply f2_put; auto.
    + rewrite concat_app. cbn [concat]. rewrite nd_mid. auto.
    + intros u H. rewrite concat_app in H. cbn [concat] in H. apply in_mid in H. auto.
  - exists (o1 ++ own :: o2), bs. constructor; cbn; auto.
    + rewrite Put. apply f2_put; auto.
    + rewrite concat_app. cbn [concat]. rewrite nd_mid. auto.
    + intros u H. rewrite concat_app in H. cbn [concat] in H. apply in_mid in H. auto.
  - destruct (nth v (q_con s) false) eqn:Cv.
    + exists (o1 ++ own :: o2), bs. constructor; cbn; auto.
      * rewrite Put. apply f2_put; auto.
      * rewrite concat_app. cbn [concat]. rewrite nd_mid. auto.
      * intros u H. rewrite concat_app in H. cbn [concat] in H. apply in_mid in H. auto.
    + exists (o1 ++ (v :: own) :: o2), bs. constructor; cbn [q_con q_thr q_log]; auto.
      * rewrite upd_length. auto.
      * rewrite Put. apply f2_put; auto.
      * rewrite concat_app. cbn [concat]. rewrite nd_mid. cbn [app]. constructor; [|auto].
        intro H. apply in_app_or in H. rewrite C' in Cv by auto. discriminate.
      * intros u H. rewrite concat_app in H. cbn [concat] in H. apply in_mid in H. destruct H as [[<-|H]|H].
        -- apply con_new; auto.
        -- apply con_one; auto.
        -- apply con_one; auto.
  - exists (o1 ++ own :: o2), bs. constructor; cbn [q_con q_thr q_log]; auto.
    + rewrite Put. apply f2_put; auto.
    + rewrite concat_app. cbn [concat]. rewrite nd_mid. auto.
    + intros u H. rewrite concat_app in H. cbn [concat] in H. apply in_mid in H. auto.
    + intros y z H. apply in_app_or in H. destruct H as [H|[H|[]]]; [auto|]. injection H as <- <-. auto.
  - exists (o1 ++ own :: o2), ((a, b) :: bs). constructor; cbn [q_con q_thr q_log]; auto.
    + rewrite Put. apply f2_put; auto.
    + rewrite concat_app. cbn [concat]. rewrite nd_mid. cbn [ends flat_map fst snd app]. change (flat_map _ bs) with (ends bs).
      eapply Permutation_NoDup; [|exact ND]. cbn [app].
      etransitivity; [apply perm_swap|]. rewrite !app_assoc.
      etransitivity; [apply perm_skip, Permutation_middle|]. apply Permutation_middle.
    + intros u H. rewrite concat_app in H. cbn [concat] in H. apply in_mid in H.
      cbn [ends flat_map fst snd app] in H. change (flat_map _ bs) with (ends bs) in H. apply C'.
      rewrite !in_app_iff in *. cbn [In] in *. tauto.
    + intros y z H. apply in_app_or in H. destruct H as [H|[H|[]]].
      * destruct (O y z H); [auto|right; right; auto].
      * right. left. auto.
    + intros y z [H|H]; [injection H as <- <-; eauto|auto].
    + congruence.
  - apply IH; auto.
    + cbn [app] in ND. apply NoDup_cons_iff in ND. apply ND.
    + intros u [H|H]; apply C'; [left; right; auto|auto].
Qed.

Lemma run_ok sched : forall s owns bs, qinv s owns bs -> exists owns' bs', qinv (p_run s sched) owns' bs'.
Proof.
  induction sched as [|i sched IH]; intros s owns bs I; [exists owns, bs; auto|].
  destruct (step_ok s i owns bs I) as (o' & b' & I'). apply (IH _ o' b' I').
Qed.

Lemma init_ok thr : Forall (safe []) thr -> exists owns, qinv (mk_qst (repeat false n) (repeat false n) [] thr) owns [].
Proof.
  intro F. exists (map (fun _ => []) thr).
  assert (E : concat (map (fun _ : prog => @nil nat) thr) = []) by (clear; induction thr; simpl; auto).
  constructor; cbn [q_con q_thr q_log]; rewrite ?E; cbn; auto; try easy.
  - apply repeat_length.
  - clear E. induction F; simpl; constructor; auto.
  - constructor.
Qed.

(** prTests12 *)
Lemma edge12_safe v t w k : sane12 G limit all -> In (t, w) (nth v G []) -> safe [] k -> safe [] (par12_edge all limit G v (t, w) k).
Proof.
  intros Sa Hin K. assert (Hv : v < n) by (apply (row_lt G v (t, w) Hin)).
  destruct (proj1 U v t w Hin) as [Ht Nt]. fold n in Ht.
  assert (Lw : (w <= wt G v t)%N) by (apply wt_entry; auto).
  assert (Lw' : (w <= wt G t v)%N) by (rewrite <- (proj2 U v t) by auto; auto).
  unfold par12_edge.
  match goal with |- safe [] (if _ then PSet _ (PSet _ (PUni _ _ ?r)) else _) => set (rest := r) end.
  assert (R : safe [] rest).
  { unfold rest. clear rest.
    destruct (negb all || ((limit <=? trunc32 (deg G v))%N && (limit <=? trunc32 (deg G t))%N)) eqn:Gd; [|auto].
    assert (Dg : (limit <= deg G v)%N /\ (limit <= deg G t)%N).
    { destruct Sa as [_ [A|A]]; [|split; apply A; auto]. rewrite A in Gd. cbn [negb orb] in Gd. apply andb_prop in Gd. destruct Gd as [X Y].
      apply N.leb_le in X. apply N.leb_le in Y. pose proof (trunc_le G (deg G v)). pose proof (trunc_le G (deg G t)). lia. }
    destruct Dg as [D1 D2]. destruct Sa as [Sm _]. rewrite !trunc_small by (apply Sm; auto).
    destruct (N.ltb_spec (deg G v) (2 * w)) as [L|L].
    { constructor; auto. apply safe_weak. constructor. constructor; auto. apply (good_half G limit U v t w); auto. }
    destruct (N.ltb_spec (deg G t) (2 * w)) as [L'|L']; [|auto].
    constructor; auto. apply safe_weak. constructor. constructor; auto. apply good_sym. apply (good_half G limit U t v w); auto. }
  destruct (N.leb_spec limit w) as [Le|Gt]; [|auto].
  constructor. constructor. constructor; auto. apply good_heavy; auto. lia.
Qed.

Lemma edges12_safe v k : sane12 G limit all -> safe [] k -> forall es, incl es (nth v G []) -> safe [] (par12_edges all limit G v es k).
Proof.
  intros Sa K. induction es as [|[t w] es IH]; intros Inc; [auto|]. cbn [par12_edges].
  apply edge12_safe; auto; [apply Inc; left; auto|]. apply IH. intros e He. apply Inc. right. auto.
Qed.

Lemma nodes12_safe ns : sane12 G limit all -> safe [] (par12_nodes all limit G ns).
Proof.
  intro Sa. induction ns as [|v ns IH]; [constructor|]. cbn [par12_nodes]. apply edges12_safe; auto. apply incl_refl.
Qed.

(** prTests34 *)
Definition sanep34 : Prop := (sane34 G limit all /\ strict = all) /\ forall v, v < n -> (deg G v < 4294967296)%N.

Lemma tri_safe v tgt w1 mk k : sanep34 -> In (tgt, w1) (nth v G []) -> v < tgt -> marks_fine G mk ->
  forall es pre sum, nth tgt G [] = pre ++ es -> (sum <= W v tgt + common G v tgt pre)%N ->
  (forall sum', (sum' <= W v tgt + common G v tgt (nth tgt G []))%N -> safe [] (k sum')) ->
  safe [] (par_tri all limit G v tgt w1 mk sum es k).
Proof.
  intros [[[Np Sa] Se] Sm] Hin Lt Mk es pre sum E Ls K. revert pre sum E Ls.
  assert (Hv : v < n) by (apply (row_lt G v (tgt, w1) Hin)).
  destruct (proj1 U v tgt w1 Hin) as [Ht Nt]. fold n in Ht.
  assert (Mono : forall p q, (common G v tgt p <= common G v tgt (p ++ q))%N).
  { intros p q. unfold common. rewrite map_app, sumN_app. lia. }
  induction es as [|[t2 w2] es IH]; intros pre sum E Ls.
  - rewrite app_nil_r in E. subst pre. cbn [par_tri]. auto.
  - cbn [par_tri].
    assert (Hin2 : In (t2, w2) (nth tgt G [])) by (rewrite E; apply in_or_app; right; left; auto).
    destruct (proj1 U tgt t2 w2 Hin2) as [Ht2 Nt2]. fold n in Ht2.
    assert (E2 : nth tgt G [] = (pre ++ [(t2, w2)]) ++ es) by (rewrite <- app_assoc; auto).
    assert (Skip : safe [] (par_tri all limit G v tgt w1 mk sum es k)).
    { apply (IH (pre ++ [(t2, w2)])); auto. specialize (Mono pre [(t2, w2)]). lia. }
    destruct (nth t2 mk None) as [[m e]|] eqn:Em; [|auto].
    destruct (Nat.eqb_spec m v) as [Q|Nm]; cbn [negb]; [|auto]. rewrite Q in Em. clear Skip.
    destruct (Mk t2 v e Em) as [Lt2 [w3 E3]].
    assert (In3 : In (t2, w3) (nth v G [])) by (eapply nth_error_In; eauto).
    rewrite (nth_error_nth _ _ _ E3). cbn [snd].
    assert (Q1 : (w1 <= W v tgt)%N) by (apply wt_entry; auto).
    assert (Q2 : (w2 <= W tgt t2)%N) by (apply wt_entry; auto).
    assert (Q3 : (w3 <= W v t2)%N) by (apply wt_entry; auto).
    assert (Sum : (sum + N.min w2 w3 <= W v tgt + common G v tgt (pre ++ [(t2, w2)]))%N).
    { rewrite common_snoc. fold W. destruct (Nat.eqb_spec t2 v); [lia|]. destruct (Nat.eqb_spec t2 tgt); [lia|]. cbn [orb]. lia. }
    assert (Go : safe [] (par_tri all limit G v tgt w1 mk (sum + N.min w2 w3) es k)) by (apply (IH (pre ++ [(t2, w2)])); auto).
    assert (Stop : safe [] (k (sum + N.min w2 w3)%N)).
    { apply K. rewrite E2. specialize (Mono (pre ++ [(t2, w2)]) es). lia. }
    rewrite !trunc_small by (apply Sm; auto).
    set (one := negb all && (deg G v <=? 2 * (w1 + w3))%N && (deg G tgt <=? 2 * (w1 + w2))%N).
    set (two := all && (deg G v <? 2 * (w1 + w3))%N && (deg G tgt <? 2 * (w1 + w2))%N && (limit <=? deg G v)%N && (limit <=? deg G tgt)%N).
    destruct (one || two) eqn:C1; [|auto].
    constructor; [auto| |auto]. constructor; [auto| |apply safe_weak; auto].
    destruct all eqn:Al.
    + assert (two = true) as T by (destruct one eqn:O1; [discriminate O1|exact C1]).
      unfold two in T. rewrite !andb_true_iff in T. destruct T as [[[[_ T1] T2] T3] T4].
      apply N.ltb_lt in T1. apply N.ltb_lt in T2. apply N.leb_le in T3. apply N.leb_le in T4.
      apply safe_weak, safe_weak. constructor; [|auto].
      apply (good_triangle G limit U v tgt t2). constructor; fold n W; auto; try lia.
    + destruct Sa as [Sa|Sa]; [discriminate|].
      assert (one = true) as T by (destruct one eqn:O1; [reflexivity|exact C1]).
      unfold one in T. rewrite !andb_true_iff in T. destruct T as [[_ T1] T2].
      apply N.leb_le in T1. apply N.leb_le in T2.
      apply (safe_tri [] v tgt t2); [congruence| |auto].
      constructor; fold n W; auto; try lia.
Qed.

Lemma edges34_safe v k : sanep34 -> (forall mk, marks_fine G mk -> safe [] (k mk)) ->
  forall es mk, incl es (nth v G []) -> marks_fine G mk -> safe [] (par34_edges all limit G v mk es k).
Proof.
  intros Sa K. induction es as [|[tgt w1] es IH]; intros mk Inc M; [apply K; auto|]. cbn [par34_edges].
  assert (Inc' : incl es (nth v G [])) by (intros e He; apply Inc; right; auto).
  assert (Hin : In (tgt, w1) (nth v G [])) by (apply Inc; left; auto).
  constructor. destruct (Nat.ltb_spec v tgt) as [Lt|Ge]; [|auto].
  apply (tri_safe v tgt w1 mk _ Sa Hin Lt M (nth tgt G []) []); auto.
  { pose proof (wt_entry G v tgt w1 Hin) as X. fold W in X. unfold common. cbn. lia. }
  intros sum Ls. cbv zeta.
  assert (R : safe [] (par34_edges all limit G v (upd mk tgt None) es k)) by (apply IH; auto; apply marks_upd_none; auto).
  destruct (N.leb_spec limit sum) as [Le|Gt]; [|auto]. constructor. constructor. constructor; [|auto].
  assert (Hv : v < n) by (apply (row_lt G v (tgt, w1) Hin)).
  destruct (proj1 U v tgt w1 Hin) as [Ht Nt]. fold n in Ht.
  apply (good_tri G limit U v tgt sum); auto. fold n W. etransitivity; [apply Ls|]. apply N.add_le_mono_l.
  apply common_bound; auto. apply Sa.
Qed.

Lemma nodes34_safe : sanep34 -> forall ns mk, marks_fine G mk -> safe [] (par34_nodes all limit G mk ns).
Proof.
  intro Sa. induction ns as [|v ns IH]; intros mk M; [constructor|]. cbn [par34_nodes]. constructor. intros [|]; [auto|].
  constructor. apply edges34_safe; auto; [apply incl_refl|]. apply (mark_edges_ok G v (nth v G []) []); auto.
Qed.

Lemma no_marks : marks_fine G (repeat None n).
Proof.
  intros t m e E. exfalso. destruct (Nat.lt_ge_cases t n) as [Lt|Ge].
  - rewrite nth_repeat_lt in E by auto. discriminate.
  - rewrite nth_overflow in E by (rewrite repeat_length; auto). discriminate.
Qed.

(** the pairs joined in any execution, and some minimum cut that respects all of them *)
Lemma qinv_some s owns bs S : qinv s owns bs -> mincut_below G limit S ->
  exists S', mincut_below G limit S' /\ forall a b, conn (q_log s) a b -> S' a = S' b.
Proof.
  intros [L T ND C O Tr Al] B.
  assert (ND' : NoDup (ends bs)) by (clear - ND; induction (concat owns) as [|x l IH]; [auto|apply NoDup_cons_iff in ND; apply IH, ND]).
  destruct (fix_all G limit U bs Tr ND' S B) as [S' [B' [E _]]].
  exists S'. split; [auto|]. intros a b. apply (conn_in_relation (q_log s) (fun a b => S' a = S' b)).
  - reflexivity.
  - intros; congruence.
  - intros; congruence.
  - intros x y I. destruct (O x y I) as [X|X]; [apply X; auto|apply E; auto].
Qed.

Lemma qinv_all s owns bs : qinv s owns bs -> strict = true -> forall a b, conn (q_log s) a b -> good G limit a b.
Proof.
  intros [L T ND C O Tr Al] A a b Cn. apply (good_conn G limit (q_log s)); [|auto]. intros x y I.
  destruct (O x y I) as [X|X]; [auto|]. rewrite (Al A) in X. contradiction.
Qed.

Theorem par12_ok work sched : sane12 G limit all -> exists owns bs, qinv (p_run (par12_init all limit G work) sched) owns bs.
Proof.
  intro Sa. destruct (init_ok (map (par12_nodes all limit G) work)) as [owns I].
  - apply Forall_forall. intros p Hp. apply in_map_iff in Hp. destruct Hp as [ns [<- _]]. apply nodes12_safe. auto.
  - apply (run_ok sched _ _ _ I).
Qed.

Theorem par34_ok work sched : sanep34 -> exists owns bs, qinv (p_run (par34_init all limit G work) sched) owns bs.
Proof.
  intro Sa. destruct (init_ok (map (par34_nodes all limit G (repeat None (length G))) work)) as [owns I].
  - apply Forall_forall. intros p Hp. apply in_map_iff in Hp. destruct Hp as [ns [<- _]]. apply nodes34_safe; auto. apply no_marks.
  - apply (run_ok sched _ _ _ I).
Qed.
End Par.
