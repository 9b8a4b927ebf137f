(* P_ParContract5.v - proofs about M_ParContract: contractGraphFullMesh. *)
From Verif Require Import P_Cut.
From Verif Require Export P_ParContract4.

Lemma nth_map_seq {A} (g : nat -> A) m k d : k < m -> nth k (map g (seq 0 m)) d = g k.
Proof. intro H. rewrite (nth_indep _ d (g 0)) by (rewrite map_length, seq_length; auto). rewrite map_nth, seq_nth by auto. reflexivity. Qed.

(** ** the places of the full mesh *)
Lemma slot_eq num p q : p <> q -> slot num p q = p * (num - 1) + (if p <? q then q - 1 else q).
Proof. intro H. unfold slot. generalize (p * (num - 1)) as x. intro x. destruct (Nat.ltb_spec p q); lia. Qed.
Lemma slot_lt num p q : p < num -> q < num -> p <> q -> slot num p q < num * (num - 1).
Proof. intros. rewrite slot_eq by auto. destruct (Nat.ltb_spec p q); nia. Qed.
Lemma slot_inj num p q p' q' : p < num -> q < num -> p <> q -> p' < num -> q' < num -> p' <> q' -> slot num p q = slot num p' q' -> p = p' /\ q = q'.
Proof.
  intros A B C A' B' C' E. rewrite !slot_eq in E by auto. assert (R : forall x y, x < num -> y < num -> x <> y -> (if x <? y then y - 1 else y) < num - 1) by (intros x y ? ? ?; destruct (Nat.ltb_spec x y); lia).
  pose proof (R p q A B C) as R1. pose proof (R p' q' A' B' C') as R2. rewrite (Nat.mul_comm p), (Nat.mul_comm p') in E. destruct (Nat.div_mod_unique (num - 1) p p' _ _ R1 R2 E) as [-> Q]. split; [auto|].
  destruct (Nat.ltb_spec p' q), (Nat.ltb_spec p' q'); lia.
Qed.
Lemma slot_row num i : i < num -> map (slot num i) (filter (fun j => negb (i =? j)) (seq 0 num)) = seq (i * (num - 1)) (num - 1).
Proof.
  intro H. replace num with (i + S (num - 1 - i)) at 2 by lia. rewrite seq_app. cbn [seq plus]. rewrite filter_app. cbn [filter]. rewrite Nat.eqb_refl. cbn [negb].
  assert (K : forall l, ~ In i l -> filter (fun j => negb (i =? j)) l = l). { induction l as [|x l IH]; intro N; [reflexivity|]. cbn [filter]. destruct (Nat.eqb_spec i x) as [->|]; [exfalso; apply N; left; auto|]. cbn [negb]. f_equal. apply IH. intro; apply N; right; auto. }
  rewrite !K by (rewrite in_seq; lia). rewrite map_app. replace (num - 1) with (i + (num - 1 - i)) at 3 by lia. rewrite seq_app. f_equal.
  - apply nth_ext with (d := slot num i 0) (d' := 0); [rewrite map_length, !seq_length; auto|]. intros k Hk. rewrite map_length, seq_length in Hk. rewrite map_nth, !seq_nth by auto. rewrite slot_eq by lia. destruct (Nat.ltb_spec i (0 + k)); lia.
  - apply nth_ext with (d := slot num i 0) (d' := 0); [rewrite map_length, !seq_length; auto|]. intros k Hk. rewrite map_length, seq_length in Hk. rewrite map_nth, !seq_nth by auto. rewrite slot_eq by lia. destruct (Nat.ltb_spec i (S i + k)); lia.
Qed.
Lemma slots_all num : flat_map (fun i => map (slot num i) (filter (fun j => negb (i =? j)) (seq 0 num))) (seq 0 num) = seq 0 (num * (num - 1)).
Proof.
  rewrite !flat_map_concat_map, (map_ext_in _ (fun i => seq (i * (num - 1)) (num - 1))), <- flat_map_concat_map. 2: { intros i I. apply in_seq in I. apply slot_row. lia. }
  generalize (num - 1) as m. induction num as [|k IH]; intro m; [reflexivity|]. rewrite seq_S, flat_map_app, IH. cbn [flat_map plus]. rewrite app_nil_r, <- seq_app. f_equal. lia.
Qed.

Section Mesh.
Context (G : graph) (U : undirected G) (mapping : list nat) (num : nat) (HM : forall v, v < length G -> nth v mapping 0 < num).
Let n := length G.
Let f v := nth v mapping 0.
Definition esum (src k : nat) (es : list (nat * N)) : N := sumN (fun e => if f (fst e) =? src then 0%N else if slot num src (f (fst e)) =? k then snd e else 0%N) es.

Lemma mesh_node_ok src : src < num -> forall es arr, (forall t w, In (t, w) es -> t < n) -> length arr = num * (num - 1) ->
  exists arr', mesh_node mapping num src es arr = Some arr' /\ length arr' = num * (num - 1) /\ forall k, nth k arr' 0%N = (nth k arr 0 + esum src k es)%N.
Proof.
  intro Hs. induction es as [|[t w] es IH]; intros arr Ht La; cbn [mesh_node]; [exists arr; split; [auto|]; split; [auto|]; intro; unfold esum; cbn; lia|].
  assert (T : f t < num) by (apply HM; apply (Ht t w); left; auto). assert (Ht' : forall t w, In (t, w) es -> t < n) by (intros; eapply Ht; right; eauto).
  fold (f t). destruct (Nat.eqb_spec (f t) src) as [E|Ne].
  - destruct (IH arr Ht' La) as (arr' & R1 & R2 & R3). exists arr'. split; [auto|]. split; [auto|]. intro k. rewrite R3. unfold esum. cbn [sumN fst snd]. rewrite E, Nat.eqb_refl. lia.
  - assert (Q : slot num src (f t) < length arr) by (rewrite La; apply slot_lt; auto). destruct (Nat.ltb_spec (slot num src (f t)) (length arr)); [|lia].
    destruct (IH (upd arr (slot num src (f t)) (nth (slot num src (f t)) arr 0 + w)%N) Ht') as (arr' & R1 & R2 & R3); [rewrite upd_length; auto|]. exists arr'. split; [auto|]. split; [auto|]. intro k. rewrite R3. unfold esum. cbn [sumN fst snd].
    destruct (Nat.eqb_spec (f t) src); [contradiction|]. destruct (Nat.eqb_spec (slot num src (f t)) k) as [<-|Nk]; [rewrite nth_upd_eq by auto; lia|rewrite nth_upd_neq by auto; lia].
Qed.
Definition vsum (k v : nat) : N := esum (f v) k (nth v G []).
Lemma mesh_thread_ok : forall vs arr, (forall v, In v vs -> v < n) -> length arr = num * (num - 1) ->
  exists arr', mesh_thread G mapping num vs arr = Some arr' /\ length arr' = num * (num - 1) /\ forall k, nth k arr' 0%N = (nth k arr 0 + sumN (vsum k) vs)%N.
Proof.
  induction vs as [|v vs IH]; intros arr Hv La; cbn [mesh_thread]; [exists arr; split; [auto|]; split; [auto|]; intro; cbn; lia|].
  destruct (mesh_node_ok (f v) (HM v (Hv v (or_introl eq_refl))) (nth v G []) arr) as (a1 & E1 & L1 & N1); [intros t w I; apply (proj1 U v t w I)|auto|]. unfold f in E1. rewrite E1.
  destruct (IH a1) as (a2 & E2 & L2 & N2); [intros; apply Hv; right; auto|auto|]. exists a2. split; [auto|]. split; [auto|]. intro k. rewrite N2, N1. cbn [sumN]. unfold vsum at 2. lia.
Qed.
Lemma mesh_all_ok : forall assign inter, (forall v, In v (concat assign) -> v < n) -> length inter = num * (num - 1) ->
  exists inter', mesh_all G mapping num assign inter = Some inter' /\ length inter' = num * (num - 1) /\ forall k, k < num * (num - 1) -> nth k inter' 0%N = (nth k inter 0 + sumN (vsum k) (concat assign))%N.
Proof.
  induction assign as [|vs assign IH]; intros inter Hv Li; cbn [mesh_all]; [exists inter; split; [auto|]; split; [auto|]; intros; cbn; lia|]. cbn [concat] in *.
  destruct (mesh_thread_ok vs (repeat 0%N (num * (num - 1)))) as (arr & E1 & L1 & N1); [intros; apply Hv, in_app_iff; auto|apply repeat_length|]. rewrite E1.
  destruct (IH (map (fun i => (nth i inter 0 + nth i arr 0)%N) (seq 0 (length inter)))) as (i2 & E2 & L2 & N2); [intros; apply Hv, in_app_iff; auto|rewrite map_length, seq_length; auto|].
  exists i2. split; [auto|]. split; [auto|]. intros k Hk. rewrite N2 by auto. rewrite sumN_app.
  rewrite nth_map_seq by lia. rewrite N1, nth_repeat. lia.
Qed.
Lemma mesh_between p q : p < num -> q < num -> p <> q -> bsum n (vsum (slot num p q)) = between G mapping p q.
Proof.
  intros Hp Hq N. unfold between. apply bsum_ext. intros x Hx. unfold vsum, esum.
  rewrite (sumN_ext _ (fun e => if (f x =? p) && (f (fst e) =? q) then snd e else 0%N)).
  - rewrite (row_sum_g (nth x G []) n (fun y => (f x =? p) && (f y =? q))); [reflexivity|]. intros t w I. apply (proj1 U x t w I).
  - intros [t w] I. cbn [fst snd]. assert (Ht : f t < num) by (apply HM; apply (proj1 U x t w I)). assert (Hfx : f x < num) by (apply HM; auto). destruct (Nat.eqb_spec (f t) (f x)) as [E|Ne].
    + destruct (Nat.eqb_spec (f x) p), (Nat.eqb_spec (f t) q); cbn [andb]; auto; lia.
    + destruct (Nat.eqb_spec (slot num (f x) (f t)) (slot num p q)) as [E|E].
      * apply slot_inj in E as [-> ->]; auto. rewrite !Nat.eqb_refl. reflexivity.
      * destruct (Nat.eqb_spec (f x) p) as [Ep|], (Nat.eqb_spec (f t) q) as [Eq|]; cbn [andb]; auto. rewrite Ep, Eq in E. congruence.
Qed.

(** ** the edge lists *)
Definition mesh_row (inter : list N) (i : nat) : list (nat * N) :=
  flat_map (fun j => if i =? j then [] else if (0 <? nth (slot num i j) inter 0)%N then [(j, nth (slot num i j) inter 0%N)] else []) (seq 0 num).
Lemma mesh_rows_nth inter i : i < num -> nth i (mesh_rows num inter) [] = mesh_row inter i.
Proof. intro H. unfold mesh_rows. change (map _ (seq 0 num)) with (map (mesh_row inter) (seq 0 num)). rewrite (nth_indep _ [] (mesh_row inter 0)) by (rewrite map_length, seq_length; auto). rewrite map_nth, seq_nth by auto. reflexivity. Qed.
Lemma mesh_row_fst inter i : map fst (mesh_row inter i) = filter (fun j => (0 <? nth (slot num i j) inter 0)%N) (filter (fun j => negb (i =? j)) (seq 0 num)).
Proof.
  unfold mesh_row. induction (seq 0 num) as [|j l IH]; [reflexivity|]. cbn [flat_map filter]. rewrite map_app, IH. destruct (i =? j); cbn [negb map app]; [auto|]. cbn [filter]. destruct (0 <? _)%N; reflexivity.
Qed.
Lemma mesh_row_wt inter i q : q < num -> i <> q -> sumN snd (filter (fun e => fst e =? q) (mesh_row inter i)) = nth (slot num i q) inter 0%N.
Proof.
  intros Hq N. rewrite sumN_filter. unfold mesh_row. rewrite sumN_flat_map. change (sumN ?g (seq 0 num)) with (bsum num g).
  rewrite (bsum_ext num _ (fun j => if j =? q then nth (slot num i j) inter 0%N else 0%N)); [apply (bsum_single num (fun j => nth (slot num i j) inter 0%N)); auto|].
  intros j Hj. destruct (Nat.eqb_spec i j) as [<-|Nj]; [destruct (Nat.eqb_spec i q); [contradiction|reflexivity]|]. destruct (N.ltb_spec 0 (nth (slot num i j) inter 0%N)); cbn [sumN fst snd]; destruct (j =? q); lia.
Qed.
Lemma mesh_room inter : length inter = num * (num - 1) -> length (concat (mesh_rows num inter)) = length (filter (fun w => (0 <? w)%N) inter).
Proof.
  intro L. assert (E : forall P : N -> bool, forall l, length (filter P l) = length (filter (fun k => P (nth k l 0%N)) (seq 0 (length l)))).
  { intros P l. induction l as [|x l IH]; [reflexivity|]. cbn [length seq]. rewrite <- seq_shift. cbn [filter]. change (nth 0 (x :: l) 0%N) with x. assert (Z : length (filter (fun k => P (nth k (x :: l) 0%N)) (map S (seq 0 (length l)))) = length (filter P l)). { rewrite IH. clear. induction (seq 0 (length l)) as [|y m IH]; [reflexivity|]. cbn [map filter]. change (nth (S y) (x :: l) 0%N) with (nth y l 0%N). destruct (P (nth y l 0%N)); cbn [length]; auto. }
    destruct (P x); cbn [length]; rewrite Z; auto. }
  rewrite E, L, <- slots_all. unfold mesh_rows. change (map _ (seq 0 num)) with (map (mesh_row inter) (seq 0 num)). generalize (seq 0 num) at 1 3. intro l. induction l as [|i l IH]; [reflexivity|]. cbn [map concat flat_map]. rewrite filter_app, !app_length, IH. f_equal.
  rewrite <- (map_length fst), mesh_row_fst. generalize (filter (fun j => negb (i =? j)) (seq 0 num)). intro m. induction m as [|j m IHm]; [reflexivity|]. cbn [map filter]. destruct (0 <? _)%N; cbn [length]; auto.
Qed.

Theorem full_mesh_ok assign : Permutation (concat assign) (seq 0 n) ->
  exists H, full_mesh G mapping num assign = Some H /\ length H = num /\ undirected H /\ contraction_of n (wt G) f num (wt H) /\ forall v, NoDup (map fst (nth v H [])).
Proof.
  intro HA. destruct (mesh_all_ok assign (repeat 0%N (num * (num - 1)))) as (inter & E & L & V); [intros v I; apply (Permutation_in _ HA), in_seq in I; lia|apply repeat_length|].
  exists (mesh_rows num inter). unfold full_mesh. rewrite E. cbv zeta. rewrite mesh_room, Nat.leb_refl by auto. split; [reflexivity|].
  assert (LH : length (mesh_rows num inter) = num) by (unfold mesh_rows; rewrite map_length, seq_length; auto). split; [auto|].
  assert (W : forall p q, p < num -> q < num -> p <> q -> wt (mesh_rows num inter) p q = between G mapping p q).
  { intros p q Hp Hq N. unfold wt. rewrite mesh_rows_nth, mesh_row_wt by auto. rewrite V by (apply slot_lt; auto). rewrite nth_repeat, (sumN_perm _ _ _ HA). apply mesh_between; auto. }
  split; [split|split; [exact W|]].
  - intros u v w I. destruct (Nat.lt_ge_cases u num) as [Hu|Hu]; [|rewrite nth_overflow in I by lia; destruct I]. rewrite mesh_rows_nth in I by auto. apply (in_map fst) in I. rewrite mesh_row_fst in I. apply filter_In in I as [I _]. apply filter_In in I as [I Q]. apply in_seq in I. cbn [fst] in *. destruct (Nat.eqb_spec u v); [discriminate Q|]. lia.
  - intros u v Hu Hv. rewrite LH in *. destruct (Nat.eq_dec u v) as [->|N]; [auto|]. rewrite !W by auto. apply between_sym; auto.
  - intro v. destruct (Nat.lt_ge_cases v num) as [Hu|Hu]; [|rewrite nth_overflow by lia; constructor]. rewrite mesh_rows_nth, mesh_row_fst by auto. apply NoDup_filter, NoDup_filter, seq_NoDup.
Qed.
End Mesh.
