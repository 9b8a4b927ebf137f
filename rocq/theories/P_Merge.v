(* P_Merge.v - proofs about mergeGraphs, part 1: the graph glued together from two graphs, its cuts, rows, places and members. *)
From Verif Require Import SpecCut SpecDyn SpecMutable M_Mutable P_Mutable P_Cut P_LocalSearch P_LocalSearch2 P_AllMincuts P_MutableIO M_StCactus M_Merge P_StCactus P_StCactus3 P_StCactus5 P_StCactus7 P_StCactus8 P_StCactus9 P_Split4 P_Dynamic.

(** ** half of the half edges give the cut *)
Lemma row_sum R u (P : nat -> bool) : valid_rows R -> sumN (fun h : half => if P (fst (fst h)) then snd (fst h) else 0%N) (nth u R []) = bsum (length R) (fun z => if P z then wt (adj R) u z else 0%N).
Proof.
  intro V. assert (B : forall h, In h (nth u R []) -> fst (fst h) < length R). { intros [[t w] r] I. apply In_nth_error in I. destruct I as [e S]. apply (V u e t w r S). }
  transitivity (bsum (length R) (fun z => if P z then sumN (fun h : half => if fst (fst h) =? z then snd (fst h) else 0%N) (nth u R []) else 0%N)).
  2: { apply bsum_ext. intros z _. rewrite wt_sum. reflexivity. }
  revert B. generalize (nth u R []) as l. induction l as [|h l IH]; intro B; cbn [sumN].
  - symmetry. apply bsum_zero. intros. destruct (P i); reflexivity.
  - rewrite IH by (intros; apply B; right; auto).
    rewrite <- (bsum_single (length R) (fun z => if P z then snd (fst h) else 0%N) (fst (fst h))) by (apply B; left; auto).
    rewrite <- bsum_add. apply bsum_ext. intros z _. rewrite (Nat.eqb_sym z). destruct (fst (fst h) =? z), (P z); lia.
Qed.
Lemma half_sum R (sel : nat -> nat -> bool) S : valid_rows R -> (forall a b, a < length R -> b < length R -> a <> b -> sel a b = negb (sel b a)) ->
  bsum (length R) (fun u => sumN (fun h : half => if sel u (fst (fst h)) then dif S u (fst (fst h)) (snd (fst h)) else 0%N) (nth u R [])) = cutw (length R) (wt (adj R)) S.
Proof.
  intros V H. set (n := length R). set (W := wt (adj R)). assert (Sy : forall u v, u < n -> v < n -> W u v = W v u) by (apply valid_symm; auto).
  assert (L0 : forall u, u < n -> W u u = 0%N).
  { intros u Hu. unfold W. rewrite wt_sum. apply sumN_zero. intros [[t w] r] I. cbn [fst snd]. destruct (Nat.eqb_spec t u) as [->|]; [|reflexivity]. apply In_nth_error in I. destruct I as [e Se]. destruct (V u e u w r Se) as (_ & X & _). congruence. }
  transitivity (bsum n (fun u => bsum n (fun z => (if S u && negb (S z) then (if sel u z then W u z else 0) else 0) + (if S z && negb (S u) then (if sel u z then W u z else 0) else 0))%N)).
  - apply bsum_ext. intros u Hu. rewrite (sumN_ext _ (fun h : half => if sel u (fst (fst h)) && negb (Bool.eqb (S u) (S (fst (fst h)))) then snd (fst h) else 0%N)).
    2: { intros h _. unfold dif. destruct (sel u (fst (fst h))), (Bool.eqb (S u) (S (fst (fst h)))); reflexivity. }
    rewrite (row_sum R u (fun t => sel u t && negb (Bool.eqb (S u) (S t))) V). fold n W. apply bsum_ext. intros z _. destruct (sel u z), (S u), (S z); cbn; lia.
  - transitivity (bsum n (fun u => bsum n (fun z => if S u && negb (S z) then (if sel u z then W u z else 0) else 0)%N) + bsum n (fun u => bsum n (fun z => if S z && negb (S u) then (if sel u z then W u z else 0) else 0)%N))%N.
    { rewrite <- bsum_add. apply bsum_ext. intros u _. apply bsum_add. }
    rewrite (bsum_swap n n (fun u z => if S z && negb (S u) then _ else 0%N)). unfold cutw. rewrite <- bsum_add. apply bsum_ext. intros u Hu. rewrite <- bsum_add. apply bsum_ext. intros z Hz.
    destruct (S u && negb (S z)) eqn:Q; [|reflexivity]. assert (u <> z) by (intros ->; destruct (S z); discriminate Q). rewrite (H u z) by auto. rewrite (Sy z u) by auto. destruct (sel z u); cbn [negb]; lia.
Qed.

(** ** adding a list of edges *)
Definition ne3 (M : mg) (e : nat * nat * N) : option mg := m_new_edge M (fst (fst e)) (snd (fst e)) (snd e).
Definition up3 (e : nat * nat * N) : bool := fst (fst e) <? snd (fst e).
Lemma edges3 : forall es M, mvalid M -> (forall e, In e es -> up3 e = true -> snd (fst e) < m_n M) ->
  exists M', fold_opt ne3 es M = Some M' /\ mvalid M' /\ m_n M' = m_n M /\ m_last M' = m_last M /\ m_pos M' = m_pos M /\ m_cont M' = m_cont M /\ m_orig M' = m_orig M /\
    (forall f, gcut M' f = gcut M f + sumN (fun e => if up3 e then dif f (fst (fst e)) (snd (fst e)) (snd e) else 0) es)%N /\
    (forall x, tgts (nth x (m_rows M') []) = tgts (nth x (m_rows M) []) ++ flat_map (fun e => if up3 e then near x (fst e) else []) es) /\
    (forall c, shape c M -> (forall e, In e es -> snd e = c \/ (2 * snd e)%N = c) -> shape c M').
Proof.
  induction es as [|[[a b] w] es IH]; intros M V B; cbn [fold_opt].
  - exists M. do 7 (split; [auto|]). split; [intro f; cbn [sumN]; lia|]. split; [intro x; cbn [flat_map]; rewrite app_nil_r; reflexivity|]. auto.
  - unfold ne3 at 1. cbn [fst snd]. destruct (Nat.ltb_spec a b) as [L|L].
    + assert (Hb : b < m_n M). { apply (B (a, b, w)); [left; auto|]. apply Nat.ltb_lt. exact L. }
      destruct (new_edge_more M a b w V L Hb) as (M1 & E1 & V1 & N1 & W1 & P1 & C1 & O1 & T1). rewrite E1.
      assert (La1 : m_last M1 = m_last M). { unfold m_new_edge in E1. destruct (Nat.ltb_spec a b); [|lia]. destruct (Nat.ltb_spec b (m_n M)); [|lia]. injection E1 as <-. reflexivity. }
      destruct (IH M1 V1) as (M' & E' & V' & N' & La' & P' & C' & O' & G' & T' & S'). { intros e I. rewrite N1. apply B. right. auto. }
      exists M'. split; [exact E'|]. split; [auto|]. split; [congruence|]. split; [congruence|]. split; [congruence|]. split; [congruence|]. split; [congruence|].
      assert (U : up3 (a, b, w) = true) by (apply Nat.ltb_lt; exact L). split; [|split].
      * intro f. rewrite G'. cbn [sumN fst snd]. rewrite U. unfold gcut. rewrite N1. pose proof (cutw_wstep (m_n M) _ _ a b 0 w f ltac:(lia) Hb ltac:(lia) W1) as Q. unfold dif. destruct (Bool.eqb (f a) (f b)); lia.
      * intro x. rewrite T', T1, <- app_assoc. cbn [flat_map]. rewrite U. reflexivity.
      * intros c Sc We. apply S'; [|intros e I; apply We; right; auto]. eapply new_edge_shape; [exact Sc| |exact E1]. apply (We (a, b, w)). left. auto.
    + assert (E1 : m_new_edge M a b w = Some M). { unfold m_new_edge. destruct (Nat.ltb_spec a b); [lia|reflexivity]. } rewrite E1.
      destruct (IH M V) as (M' & E' & V' & N' & La' & P' & C' & O' & G' & T' & S'). { intros e I. apply B. right. auto. }
      assert (U : up3 (a, b, w) = false) by (apply Nat.ltb_ge; exact L).
      exists M'. split; [exact E'|]. do 6 (split; [auto|]). split; [|split].
      * intro f. rewrite G'. cbn [sumN]. rewrite U. lia.
      * intro x. rewrite T'. cbn [flat_map]. rewrite U. reflexivity.
      * intros c Sc We. apply S'; [auto|]. intros e I. apply We. right. auto.
Qed.
Lemma fold_nest {A B C} (g : B -> A -> C -> option A) (row : B -> list C) : forall ns a, fold_opt (fun a n => fold_opt (g n) (row n) a) ns a = fold_opt (fun a p => g (fst p) a (snd p)) (flat_map (fun n => map (pair n) (row n)) ns) a.
Proof.
  induction ns as [|n ns IH]; intro a; [reflexivity|]. cbn [fold_opt flat_map]. rewrite foldo_app.
  assert (K : forall l a, fold_opt (fun a p => g (fst p) a (snd p)) (map (pair n) l) a = fold_opt (g n) l a). { induction l as [|x l IHl]; intro a0; [reflexivity|]. cbn. destruct (g n a0 x); auto. }
  rewrite K. destruct (fold_opt (g n) (row n) a); auto.
Qed.

(** ** counting *)
Definition cntn (y : nat) (l : list nat) : N := sumN (fun z => if z =? y then 1%N else 0%N) l.
Lemma cntn_app y l l' : cntn y (l ++ l') = (cntn y l + cntn y l')%N.
Proof. apply sumN_app. Qed.
Lemma cntn_zero y l : ~ In y l -> cntn y l = 0%N.
Proof. intro H. apply sumN_zero. intros z I. destruct (Nat.eqb_spec z y) as [->|]; [contradiction|reflexivity]. Qed.
Lemma cntn_pos y l : In y l -> (1 <= cntn y l)%N.
Proof. intro H. unfold cntn. etransitivity; [|apply (sumN_In_le _ l y H)]. cbn beta. rewrite Nat.eqb_refl. lia. Qed.
Lemma cntn_nodup l : NoDup l <-> forall y, (cntn y l <= 1)%N.
Proof.
  induction l as [|x l IH]; [split; [intros _ y; cbn; lia|constructor]|]. split.
  - intros ND y. inversion ND as [|? ? N1 N2]; subst. unfold cntn. cbn [sumN]. fold (cntn y l). destruct (Nat.eqb_spec x y) as [->|]; [rewrite cntn_zero by auto; lia|]. pose proof (proj1 IH N2 y). lia.
  - intro H. constructor.
    + intro I. pose proof (H x) as Q. unfold cntn in Q. cbn [sumN] in Q. fold (cntn x l) in Q. rewrite Nat.eqb_refl in Q. pose proof (cntn_pos x l I). lia.
    + apply IH. intro y. specialize (H y). unfold cntn in H. cbn [sumN] in H. fold (cntn y l) in H. lia.
Qed.
Lemma cntn_flat {A} y (g : A -> list nat) l : cntn y (flat_map g l) = sumN (fun a => cntn y (g a)) l.
Proof. unfold cntn. rewrite sumN_flat_map. reflexivity. Qed.

(** ** the numbers *)
Section Glue.
Context (G1 G2 : mg) (v1 v2 : nat) (H1 : mvalid G1) (H2 : mvalid G2) (Hv1 : v1 < m_n G1) (Hv2 : v2 < m_n G2).
Notation n1 := (m_n G1). Notation n2 := (m_n G2). Notation idn := (mg_id n1 v1 v2).
Definition mg_inv (y : nat) : nat := if y <? n1 then v2 else if y - n1 <? v2 then y - n1 else S (y - n1).
Lemma id_v2 : idn v2 = v1.
Proof. unfold mg_id. rewrite Nat.eqb_refl. reflexivity. Qed.
Lemma id_new n : n <> v2 -> n1 <= idn n.
Proof. intro H. unfold mg_id. destruct (Nat.eqb_spec n v2); [contradiction|]. destruct (Nat.ltb_spec v2 n); lia. Qed.
Lemma id_lt n : n < n2 -> idn n < n1 + (n2 - 1).
Proof. intro H. unfold mg_id. destruct (Nat.eqb_spec n v2); [lia|]. destruct (Nat.ltb_spec v2 n); lia. Qed.
Lemma id_mono a b : a <> v2 -> b <> v2 -> (idn a <? idn b) = (a <? b).
Proof. intros A B. unfold mg_id. destruct (Nat.eqb_spec a v2); [contradiction|]. destruct (Nat.eqb_spec b v2); [contradiction|]. destruct (Nat.ltb_spec v2 a), (Nat.ltb_spec v2 b), (Nat.ltb_spec a b); try (apply Nat.ltb_lt; lia); apply Nat.ltb_ge; lia. Qed.
Lemma inv_id n : n < n2 -> mg_inv (idn n) = n.
Proof.
  intro H. unfold mg_inv, mg_id. destruct (Nat.eqb_spec n v2) as [->|Nn]; [destruct (Nat.ltb_spec v1 n1); [reflexivity|lia]|].
  destruct (Nat.ltb_spec v2 n).
  - destruct (Nat.ltb_spec (n + n1 - 1) n1); [lia|]. destruct (Nat.ltb_spec (n + n1 - 1 - n1) v2); lia.
  - destruct (Nat.ltb_spec (n + n1 - 0) n1); [lia|]. destruct (Nat.ltb_spec (n + n1 - 0 - n1) v2); lia.
Qed.
Lemma id_inv y : n1 <= y < n1 + (n2 - 1) -> mg_inv y < n2 /\ mg_inv y <> v2 /\ idn (mg_inv y) = y.
Proof.
  intro H. unfold mg_inv. destruct (Nat.ltb_spec y n1); [lia|]. destruct (Nat.ltb_spec (y - n1) v2).
  - split; [lia|]. split; [lia|]. unfold mg_id. destruct (Nat.eqb_spec (y - n1) v2); [lia|]. destruct (Nat.ltb_spec v2 (y - n1)); lia.
  - split; [lia|]. split; [lia|]. unfold mg_id. destruct (Nat.eqb_spec (S (y - n1)) v2); [lia|]. destruct (Nat.ltb_spec v2 (S (y - n1))); lia.
Qed.
Lemma id_inj a b : a < n2 -> b < n2 -> idn a = idn b -> a = b.
Proof. intros A B E. rewrite <- (inv_id a A), <- (inv_id b B), E. reflexivity. Qed.

(** ** the edges *)
Definition all_halves : list (nat * half) := flat_map (fun n => map (pair n) (nth n (m_rows G2) [])) (seq 0 n2).
Definition new3 (p : nat * half) : nat * nat * N := (idn (fst p), idn (fst (fst (snd p))), snd (fst (snd p))).
Definition keep3 (p : nat * half) : bool := negb (fst (fst (snd p)) =? v2).
Lemma glue_fold : forall l M, fold_opt (fun M p => mg_edge n1 v1 v2 (fst p) M (snd p)) l M = fold_opt ne3 (map new3 (filter keep3 l)) M.
Proof.
  induction l as [|p l IH]; intro M; [reflexivity|]. cbn [fold_opt filter]. unfold mg_edge, keep3 at 1. destruct (fst (fst (snd p)) =? v2); cbn [negb map fold_opt]; [apply IH|]. unfold ne3 at 1, new3 at 1. cbn [fst snd]. destruct (m_new_edge _ _ _ _); [apply IH|reflexivity].
Qed.
Lemma halves_in p : In p all_halves -> fst p < n2 /\ fst (fst (snd p)) < n2 /\ In (snd p) (nth (fst p) (m_rows G2) []).
Proof.
  intro I. apply in_flat_map in I. destruct I as (n & In' & I). apply in_map_iff in I. destruct I as (h & <- & I). apply in_seq in In'. cbn [fst snd]. split; [lia|]. split; [|auto].
  destruct h as [[t w] r]. apply In_nth_error in I. destruct I as [e S]. destruct H2 as [V _]. apply (V n e t w r S).
Qed.
Definition gsel (a b : nat) : bool := negb (b =? v2) && (idn a <? idn b).
Lemma gsel_one a b : a < n2 -> b < n2 -> a <> b -> gsel a b = negb (gsel b a).
Proof.
  intros A B N. unfold gsel. destruct (Nat.eqb_spec b v2) as [->|Nb], (Nat.eqb_spec a v2) as [->|Na]; try lia; cbn [negb andb].
  - rewrite id_v2. pose proof (id_new a Na). destruct (Nat.ltb_spec v1 (idn a)); [reflexivity|lia].
  - rewrite id_v2. pose proof (id_new b Nb). destruct (Nat.ltb_spec v1 (idn b)); [reflexivity|lia].
  - rewrite !id_mono by auto. destruct (Nat.ltb_spec a b), (Nat.ltb_spec b a); auto; lia.
Qed.
Lemma halves_cut X : sumN (fun e => if up3 e then dif X (fst (fst e)) (snd (fst e)) (snd e) else 0%N) (map new3 (filter keep3 all_halves)) = gcut G2 (fun n => X (idn n)).
Proof.
  rewrite sumN_map, sumN_filter. unfold all_halves. rewrite sumN_flat_map. unfold gcut. change n2 with (length (m_rows G2)) at 2. rewrite <- (half_sum (m_rows G2) gsel) by (apply H2 || (intros; apply gsel_one; auto)).
  rewrite bsum_seq. apply sumN_ext. intros u _. rewrite sumN_map. apply sumN_ext. intros h _. unfold keep3, up3, gsel, new3. cbn [fst snd]. destruct (fst (fst h) =? v2); cbn [negb andb]; [reflexivity|]. destruct (_ <? _); reflexivity.
Qed.

(** no parallel edges *)
Definition new_tgts (x : nat) : list nat := flat_map (fun e : nat * nat * N => if up3 e then near x (fst e) else []) (map new3 (filter keep3 all_halves)).
Lemma near_cnt x y a b : a <> b -> cntn y (near x (a, b)) = ((if Nat.eqb a x && Nat.eqb b y then 1 else 0) + (if Nat.eqb b x && Nat.eqb a y then 1 else 0))%N.
Proof.
  intro N. unfold near. cbn [fst snd]. destruct (Nat.eqb_spec a x) as [->|]; cbn [andb].
  - unfold cntn. cbn [sumN]. destruct (b =? y); destruct (Nat.eqb_spec b x); subst; cbn [andb]; try contradiction; reflexivity.
  - destruct (b =? x); cbn [andb]; unfold cntn; cbn [sumN]; [destruct (a =? y)|]; reflexivity.
Qed.
Lemma new_cnt x y : cntn y (new_tgts x) = bsum n2 (fun a => sumN (fun h : half => if gsel a (fst (fst h)) then
  ((if Nat.eqb (idn a) x && Nat.eqb (idn (fst (fst h))) y then 1 else 0) + (if Nat.eqb (idn (fst (fst h))) x && Nat.eqb (idn a) y then 1 else 0))%N else 0%N) (nth a (m_rows G2) [])).
Proof.
  unfold new_tgts. rewrite cntn_flat, sumN_map, sumN_filter. unfold all_halves. rewrite sumN_flat_map, bsum_seq. apply sumN_ext. intros a _. rewrite sumN_map. apply sumN_ext. intros h _.
  unfold keep3, up3, new3, gsel. cbn [fst snd]. destruct (fst (fst h) =? v2); cbn [negb andb]; [reflexivity|]. destruct (Nat.ltb_spec (idn a) (idn (fst (fst h)))); [|reflexivity]. rewrite near_cnt by lia. reflexivity.
Qed.
Lemma new_cnt_out x y : (forall n, n < n2 -> idn n <> x) -> cntn y (new_tgts x) = 0%N.
Proof.
  intro Q. rewrite new_cnt. apply bsum_zero. intros a Ha. apply sumN_zero. intros h I. destruct (gsel _ _); [|reflexivity]. assert (T : fst (fst h) < n2).
  { destruct h as [[t w] r]. apply In_nth_error in I. destruct I as [e S]. destruct H2 as [V _]. apply (V a e t w r S). }
  destruct (Nat.eqb_spec (idn a) x) as [E|]; [destruct (Q a Ha E)|]. destruct (Nat.eqb_spec (idn (fst (fst h))) x) as [E|]; [destruct (Q _ T E)|]. reflexivity.
Qed.
Lemma new_cnt_y x y : (forall n, n < n2 -> idn n <> y) -> cntn y (new_tgts x) = 0%N.
Proof.
  intro Q. rewrite new_cnt. apply bsum_zero. intros a Ha. apply sumN_zero. intros h I. destruct (gsel _ _); [|reflexivity]. assert (T : fst (fst h) < n2).
  { destruct h as [[t w] r]. apply In_nth_error in I. destruct I as [e S]. destruct H2 as [V _]. apply (V a e t w r S). }
  destruct (Nat.eqb_spec (idn a) y) as [E|]; [destruct (Q a Ha E)|]. destruct (Nat.eqb_spec (idn (fst (fst h))) y) as [E|]; [destruct (Q _ T E)|]. rewrite !andb_false_r. reflexivity.
Qed.
Lemma new_cnt_le n m : no_parallel (m_rows G2) -> n < n2 -> m < n2 -> (cntn (idn m) (new_tgts (idn n)) <= 1)%N.
Proof.
  intros NP Hn Hm. rewrite new_cnt.
  assert (Row : forall a b : nat, (sumN (fun h : half => if Nat.eqb (fst (fst h)) b then 1%N else 0%N) (nth a (m_rows G2) []) <= 1)%N).
  { intros a b. pose proof (proj1 (cntn_nodup _) (NP a) b) as Q. unfold cntn in Q. rewrite sumN_map in Q. exact Q. }
  transitivity (bsum n2 (fun a => (if Nat.eqb a n then (if gsel n m then 1 else 0) else 0) + (if Nat.eqb a m then (if gsel m n then 1 else 0) else 0))%N).
  - apply bsum_le. intros a Ha.
    transitivity (sumN (fun h : half => (if Nat.eqb a n && gsel n m then (if Nat.eqb (fst (fst h)) m then 1 else 0) else 0) + (if Nat.eqb a m && gsel m n then (if Nat.eqb (fst (fst h)) n then 1 else 0) else 0))%N (nth a (m_rows G2) [])).
    + apply sumN_le. intros h I. assert (T : fst (fst h) < n2).
      { destruct h as [[t w] r]. apply In_nth_error in I. destruct I as [e S]. destruct H2 as [V _]. apply (V a e t w r S). }
      destruct (gsel a (fst (fst h))) eqn:Gs; [|lia].
      assert (X : forall p q, p < n2 -> q < n2 -> (idn p =? idn q) = (p =? q)). { intros p q Hp Hq. destruct (Nat.eqb_spec p q) as [->|]; [apply Nat.eqb_refl|]. apply Nat.eqb_neq. intro E. apply id_inj in E; auto. }
      assert (Q1 : a = n -> fst (fst h) = m -> gsel n m = true) by (intros; subst; auto). assert (Q2 : a = m -> fst (fst h) = n -> gsel m n = true) by (intros; subst; auto). clear Gs.
      rewrite !X by auto. destruct (Nat.eqb_spec a n), (Nat.eqb_spec (fst (fst h)) m), (Nat.eqb_spec (fst (fst h)) n), (Nat.eqb_spec a m); cbn [andb]; try rewrite Q1 by auto; try rewrite Q2 by auto; try lia; destruct (gsel n m), (gsel m n); lia.
    + rewrite sumN_add. pose proof (Row a m). pose proof (Row a n). apply N.add_le_mono.
      * destruct (Nat.eqb_spec a n) as [->|]; cbn [andb]; [|rewrite sumN_zero; [lia|reflexivity]]. destruct (gsel n m); [auto|rewrite sumN_zero; [lia|reflexivity]].
      * destruct (Nat.eqb_spec a m) as [->|]; cbn [andb]; [|rewrite sumN_zero; [lia|reflexivity]]. destruct (gsel m n); [auto|rewrite sumN_zero; [lia|reflexivity]].
  - rewrite bsum_add. rewrite (bsum_single n2 (fun _ => if gsel n m then 1%N else 0%N) n Hn), (bsum_single n2 (fun _ => if gsel m n then 1%N else 0%N) m Hm).
    destruct (Nat.eq_dec n m) as [->|Nn]; [|rewrite (gsel_one n m) by auto; destruct (gsel m n); cbn; lia].
    assert (gsel m m = false) by (unfold gsel; rewrite Nat.ltb_irrefl; apply andb_false_r). rewrite H. lia.
Qed.
Lemma id_dec y : {n | n < n2 /\ idn n = y} + {forall n, n < n2 -> idn n <> y}.
Proof.
  destruct (Nat.eq_dec y v1) as [->|N]; [left; exists v2; split; [auto|apply id_v2]|].
  destruct (lt_dec y n1) as [L1|L1].
  - right. intros n Hn E. destruct (Nat.eq_dec n v2) as [->|Nn]; [rewrite id_v2 in E; auto|pose proof (id_new n Nn); lia].
  - destruct (lt_dec y (n1 + (n2 - 1))) as [L|L].
    + left. exists (mg_inv y). destruct (id_inv y ltac:(lia)) as (A & _ & B). auto.
    + right. intros n Hn E. pose proof (id_lt n Hn). lia.
Qed.
Lemma glue_nopar (R : list (list half)) : no_parallel (m_rows G1) -> no_parallel (m_rows G2) ->
  (forall x, tgts (nth x R []) = tgts (nth x (m_rows G1) []) ++ new_tgts x) -> no_parallel R.
Proof.
  intros P1 P2 T x. change (map (fun h : half => fst (fst h)) (nth x R [])) with (tgts (nth x R [])). rewrite T. apply cntn_nodup. intro y. rewrite cntn_app.
  assert (A : (cntn y (tgts (nth x (m_rows G1) [])) <= 1)%N) by (apply cntn_nodup; apply P1).
  destruct (id_dec x) as [(n & Hn & En)|Nx]; [|rewrite new_cnt_out by auto; lia]. destruct (id_dec y) as [(m & Hm & Em)|Ny]; [|rewrite new_cnt_y by auto; lia]. subst x y.
  pose proof (new_cnt_le n m P2 Hn Hm) as Q. destruct (Nat.eq_dec m v2) as [->|Nm].
  - (* the place v1: no new edge from it to itself, old rows of new vertices are empty *)
    destruct (Nat.eq_dec n v2) as [->|Nn].
    + rewrite (cntn_zero _ (tgts _)); [lia|]. rewrite id_v2. intro I. apply in_map_iff in I. destruct I as ([[t w] r] & E & I). cbn in E. subst t. apply In_nth_error in I. destruct I as [e S]. destruct H1 as [V _]. destruct (V v1 e v1 w r S) as (_ & X & _). congruence.
    + rewrite (nth_overflow (m_rows G1)) by (pose proof (id_new n Nn); unfold m_n in *; lia). cbn. lia.
  - rewrite (cntn_zero _ (tgts _)); [lia|]. intro I. apply in_map_iff in I. destruct I as ([[t w] r] & E & I). cbn in E. subst t. apply In_nth_error in I. destruct I as [e S]. destruct H1 as [V _]. destruct (V _ e _ w r S) as (X & _). pose proof (id_new m Nm). unfold m_n in *. lia.
Qed.
End Glue.
