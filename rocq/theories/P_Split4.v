(* P_Split4.v - proofs about M_Split: costs of components and the assembled solution. *)
From Coq Require Import Permutation.
From Verif Require Import SpecMutable SpecMulti P_Mutable P_MutableIO P_Split P_Split2 P_Split3 M_Split.

(** ** specification of the component solver: the terminals are in different blocks, vertices contracted into a terminal are
    in its block, and no other assignment is cheaper *)
Definition local_fits (q : prob) (f : nat -> nat) : Prop :=
  (forall x, x < m_n (q_orig q) -> f x < length (q_terms q)) /\
  forall i x, i < length (q_terms q) -> x < m_n (q_orig q) -> nth x (m_pos (q_graph q)) 0 = nth (nth i (q_terms q) 0) (m_pos (q_graph q)) 0 -> f x = i.
Definition solved (q : prob) (r : list nat * N) : Prop :=
  length (fst r) = m_n (q_orig q) /\ local_fits q (fun x => nth x (fst r) 0) /\
  mtcost (m_n (q_orig q)) (wt (adj (m_rows (q_orig q)))) (fun x => nth x (fst r) 0) = snd r /\
  forall f, local_fits q f -> (snd r <= mtcost (m_n (q_orig q)) (wt (adj (m_rows (q_orig q)))) f)%N.

(** ** specification of the whole problem: vertices of a terminal stay in its block *)
Definition fits (n k : nat) (tm : list (option nat)) (f : nat -> nat) : Prop :=
  (forall v, v < n -> f v < k) /\ forall v t, v < n -> nth v tm None = Some t -> f v = t.

Lemma bsum_seq m f : bsum m f = sumN f (seq 0 m).
Proof. reflexivity. Qed.
Lemma sumN_map_nth {A} (f : A -> N) (l : list A) d : sumN f l = bsum (length l) (fun i => f (nth i l d)).
Proof.
  induction l as [|a l IH] using rev_ind; [reflexivity|]. rewrite app_length, sumN_app. cbn [length sumN]. rewrite Nat.add_1_r, bsum_S, IH. rewrite app_nth2, Nat.sub_diag by lia. cbn [nth].
  rewrite N.add_0_r. f_equal. apply bsum_ext. intros i Hi. rewrite app_nth1 by lia. reflexivity.
Qed.

Lemma solve_all_ok solve : forall ps p, (forall i q, nth_error ps i = Some q -> exists r, solve (p + i) q = Some r /\ solved q r) ->
  exists rs, solve_all solve p ps = Some (map fst rs, sumN snd rs) /\ Forall2 solved ps rs.
Proof.
  induction ps as [|q ps IH]; intros p H; [exists []; split; [reflexivity|constructor]|]. cbn [solve_all].
  destruct (H 0 q eq_refl) as ([sol fl] & E & Sq). rewrite Nat.add_0_r in E. rewrite E.
  destruct (IH (S p)) as (rs & E' & F).
  { intros i q' Hi. destruct (H (S i) q' Hi) as (r & E1 & S1). exists r. split; [|auto]. replace (S p + i) with (p + S i) by lia. exact E1. }
  rewrite E'. exists ((sol, fl) :: rs). split; [reflexivity|constructor; auto].
Qed.

(** position of t in l, 0 if it is not there *)
Fixpoint index (l : list nat) (t : nat) : nat := match l with [] => 0 | a :: l' => if t =? a then 0 else if existsb (Nat.eqb t) l' then S (index l' t) else 0 end.
Lemma index_lt l t : l <> [] -> index l t < length l.
Proof.
  induction l as [|a l IH]; intros H; [congruence|]. cbn [index length]. destruct (t =? a); [lia|]. destruct (existsb (Nat.eqb t) l) eqn:E; [|lia].
  destruct l as [|b l]; [discriminate E|]. specialize (IH ltac:(discriminate)). lia.
Qed.
Lemma index_nth : forall l i, NoDup l -> i < length l -> index l (nth i l 0) = i.
Proof.
  induction l as [|a l IH]; intros [|i] ND H; cbn in H; try lia; cbn [index nth].
  - rewrite Nat.eqb_refl. reflexivity.
  - apply NoDup_cons_iff in ND as [Na ND]. destruct (Nat.eqb_spec (nth i l 0) a) as [E|_]; [exfalso; apply Na; rewrite <- E; apply nth_In; lia|].
    replace (existsb (Nat.eqb (nth i l 0)) l) with true; [rewrite IH; auto; lia|]. symmetry. apply existsb_exists. exists (nth i l 0). split; [apply nth_In; lia|apply Nat.eqb_refl].
Qed.

Lemma terms_In k n tm comp c t : In t (terms k n tm comp c) <-> t < k /\ hasb n tm comp c t = true.
Proof. unfold terms. rewrite filter_In, in_seq. split; intros [H1 H2]; split; auto; lia. Qed.

Section Cost.
Context (k n cc : nat) (tm comp : list (option nat)) (G : mg).
Hypothesis Ltm : length tm = n.
Hypothesis Htm : forall v t, nth v tm None = Some t -> t < k.
Hypothesis Lc : length comp = n.
Hypothesis Hc : forall v, v < n -> exists c, nth v comp None = Some c /\ c < cc.
Hypothesis NG : m_n G = n.
Let W := wt (adj (m_rows G)).
Hypothesis HX : forall u v, u < n -> v < n -> nth u comp None <> nth v comp None -> W u v = 0%N.

Notation verts := (verts n comp).
Notation terms := (terms k n tm comp).
Notation many := (many k n tm comp).
Notation blk := (blk comp).
Notation prob_ok := (prob_ok k n tm comp G).

Definition cell (f : nat -> nat) (u v : nat) : N := if (u <? v) && negb (f u =? f v) then W u v else 0%N.
Definition ccost (c : nat) (f : nat -> nat) : N := sumN (fun u => sumN (cell f u) (verts c)) (verts c).

Lemma sum_one c x : c < cc -> sumN (fun c' => if Nat.eqb c' c then x else 0%N) (seq 0 cc) = x.
Proof.
  intro H. assert (Y : forall l, NoDup l -> sumN (fun c' => if Nat.eqb c' c then x else 0%N) l = if existsb (Nat.eqb c) l then x else 0%N).
  { induction l as [|a l IH]; intros ND; [reflexivity|]. apply NoDup_cons_iff in ND as [Na ND]. cbn [sumN existsb]. rewrite (IH ND), (Nat.eqb_sym c a). destruct (Nat.eqb_spec a c) as [->|]; cbn [orb]; [|lia].
    replace (existsb (Nat.eqb c) l) with false; [lia|]. symmetry. apply Bool.not_true_is_false. intro X. apply existsb_exists in X as (y & Hy & Ey). apply Nat.eqb_eq in Ey. subst. contradiction. }
  rewrite Y by apply seq_NoDup. replace (existsb (Nat.eqb c) (seq 0 cc)) with true; [reflexivity|]. symmetry. apply existsb_exists. exists c. split; [apply in_seq; lia|apply Nat.eqb_refl].
Qed.
Lemma sum_comps (F : nat -> N) : forall l, (forall v, In v l -> v < n) -> sumN F l = sumN (fun c => sumN F (filter (blk c) l)) (seq 0 cc).
Proof.
  induction l as [|v l IH]; intros H; [cbn; symmetry; apply sumN_zero; auto|].
  destruct (Hc v (H v (or_introl eq_refl))) as (c & E & Hcc).
  assert (X : forall c', sumN F (filter (blk c') (v :: l)) = ((if Nat.eqb c' c then F v else 0) + sumN F (filter (blk c') l))%N).
  { intros c'. cbn [filter]. unfold P_Split3.blk at 1. rewrite E. rewrite (Nat.eqb_sym c c'). destruct (c' =? c); reflexivity. }
  transitivity (sumN (fun c' => (if Nat.eqb c' c then F v else 0) + sumN F (filter (blk c') l))%N (seq 0 cc)); [|symmetry; apply sumN_ext; intros; apply X].
  rewrite sumN_add, sum_one, <- IH by (auto; intros; apply H; right; auto). reflexivity.
Qed.

Lemma mtcost_comps f : mtcost n W f = sumN (fun c => ccost c f) (seq 0 cc).
Proof.
  unfold mtcost. rewrite bsum_seq, sum_comps by (intros v Hv; apply in_seq in Hv; lia). apply sumN_ext. intros c _. unfold ccost. apply sumN_ext. intros u Hu.
  change (In u (verts c)) in Hu. apply verts_In in Hu as [Hu Eu]. rewrite bsum_seq. unfold P_Split3.verts, ext_map. rewrite sumN_filter. apply sumN_ext. intros v Hv. apply in_seq in Hv.
  destruct (blk c v) eqn:B; [reflexivity|]. destruct (_ && _); [|reflexivity]. apply HX; [auto|lia|]. intro X. rewrite Eu in X. symmetry in X. apply (blk_eq comp c v) in X. congruence.
Qed.

Lemma ccost_nth c f : ccost c f = bsum (length (verts c)) (fun a => bsum (length (verts c)) (fun b => cell f (nth a (verts c) 0%nat) (nth b (verts c) 0%nat))).
Proof. unfold ccost. rewrite (sumN_map_nth _ _ 0). apply bsum_ext. intros a Ha. apply sumN_map_nth. Qed.

Lemma local_le c q f h : prob_ok c q -> (forall a b, a < length (verts c) -> b < length (verts c) -> f (nth a (verts c) 0) = f (nth b (verts c) 0) -> h a = h b) ->
  (mtcost (m_n (q_orig q)) (wt (adj (m_rows (q_orig q)))) h <= ccost c f)%N.
Proof.
  intros P H. rewrite ccost_nth, (po_n _ _ _ _ _ _ _ P). unfold mtcost. apply bsum_le. intros a Ha. apply bsum_le. intros b Hb. rewrite (po_w _ _ _ _ _ _ _ P) by auto. unfold cell. fold W.
  pose proof (ext_map_lt (blk c) n a b Ha Hb) as LT. fold (verts c) in LT.
  destruct (Nat.ltb_spec a b) as [L|L]; cbn [andb]; [|lia]. destruct (Nat.ltb_spec (nth a (verts c) 0) (nth b (verts c) 0)) as [L'|L']; [|lia]. cbn [andb].
  destruct (Nat.eqb_spec (h a) (h b)); cbn [negb]; [lia|]. destruct (Nat.eqb_spec (f (nth a (verts c) 0)) (f (nth b (verts c) 0))) as [E|E]; [exfalso; auto|]. cbn [negb]. destruct (Nat.eqb_spec a b); [lia|]. lia.
Qed.
Lemma local_eq c q f h : prob_ok c q -> (forall a b, a < length (verts c) -> b < length (verts c) -> (f (nth a (verts c) 0) = f (nth b (verts c) 0) <-> h a = h b)) ->
  mtcost (m_n (q_orig q)) (wt (adj (m_rows (q_orig q)))) h = ccost c f.
Proof.
  intros P H. apply N.le_antisymm; [apply local_le; auto; intros a b Ha Hb; apply H; auto|].
  rewrite ccost_nth, (po_n _ _ _ _ _ _ _ P). unfold mtcost. apply bsum_le. intros a Ha. apply bsum_le. intros b Hb. rewrite (po_w _ _ _ _ _ _ _ P) by auto. unfold cell. fold W.
  pose proof (ext_map_lt (blk c) n a b Ha Hb) as LT. fold (verts c) in LT.
  destruct (Nat.ltb_spec a b) as [L|L], (Nat.ltb_spec (nth a (verts c) 0) (nth b (verts c) 0)) as [L'|L']; cbn [andb]; try lia.
  destruct (Nat.eqb_spec (f (nth a (verts c) 0)) (f (nth b (verts c) 0))) as [E|E]; cbn [negb]; [lia|]. destruct (Nat.eqb_spec (h a) (h b)) as [E'|E']; [exfalso; apply E; apply H; auto|]. cbn [negb]. destruct (Nat.eqb_spec a b); [lia|]. lia.
Qed.

(** ** a global assignment restricted to a component *)
Lemma local_lower c q r f : prob_ok c q -> solved q r -> terms c <> [] -> fits n k tm f -> (snd r <= ccost c f)%N.
Proof.
  intros P (_ & _ & _ & M) NE [F1 F2]. set (h := fun x => index (terms c) (f (nth x (verts c) 0))).
  etransitivity; [apply (M h)|apply local_le; auto; intros a b _ _ E; unfold h; rewrite E; auto].
  split.
  - intros x Hx. unfold h. rewrite (po_len _ _ _ _ _ _ _ P). apply index_lt; auto.
  - intros i x Hi Hx E. rewrite (po_len _ _ _ _ _ _ _ P) in Hi. rewrite (po_n _ _ _ _ _ _ _ P) in Hx. apply (po_terms _ _ _ _ _ _ _ P) in E; auto.
    unfold h. rewrite (F2 (nth x (verts c) 0) _ ltac:(apply (ext_map_nth (blk c) n x Hx)) E). apply index_nth; auto. apply NoDup_terms.
Qed.

(** ** the assignment put together from the component solutions *)
Context (probs : list prob) (rs : list (list nat * N)).
Hypothesis HP : Forall2 prob_ok (filter many (seq 0 cc)) probs.
Hypothesis HS : Forall2 solved probs rs.
Hypothesis Hk : 0 < k.

Definition res (c : nat) : list nat * N := nth (pid many c) rs ([], 0%N).
Definition joint (v : nat) : nat :=
  match nth v comp None with
  | Some c => if many c then nth (nth (pid (blk c) v) (fst (res c)) 0) (terms c) 0 else hd 0 (terms c)
  | None => 0
  end.

Lemma Forall2_nth_err {A B} (R : A -> B -> Prop) l l' i x : Forall2 R l l' -> nth_error l i = Some x -> exists y, nth_error l' i = Some y /\ R x y.
Proof. intros F. revert i. induction F as [|a b l l' H F IH]; intros [|i] E; cbn in E; try discriminate E; [injection E as <-; exists b; auto|apply IH; auto]. Qed.
Lemma Forall2_len {A B} (R : A -> B -> Prop) l l' : Forall2 R l l' -> length l = length l'.
Proof. induction 1; cbn; auto. Qed.

Lemma comp_at c : c < cc -> many c = true -> exists q, nth_error probs (pid many c) = Some q /\ prob_ok c q /\ nth_error rs (pid many c) = Some (res c) /\ solved q (res c).
Proof.
  intros Hcc M. assert (PL : pid many c < length (ext_map many cc)) by (apply pid_lt; auto).
  assert (E : nth_error (filter many (seq 0 cc)) (pid many c) = Some c). { rewrite (nth_error_nth' _ 0) by exact PL. f_equal. apply (nth_pid many cc c); auto. }
  destruct (Forall2_nth_err _ _ _ _ _ HP E) as (q & Eq & Pq). destruct (Forall2_nth_err _ _ _ _ _ HS Eq) as (r & Er & Sr).
  exists q. split; [auto|]. split; [auto|]. unfold res. rewrite (nth_error_nth _ _ _ Er). auto.
Qed.

Lemma many_ne c : many c = true -> terms c <> []. Proof. unfold P_Split3.many. destruct (terms c); [discriminate|intros _ X; discriminate X]. Qed.

Lemma joint_in c x : c < cc -> many c = true -> x < length (verts c) -> joint (nth x (verts c) 0) = nth (nth x (fst (res c)) 0) (terms c) 0.
Proof.
  intros Hcc M Hx. destruct (ext_map_nth (blk c) n x Hx) as [A B]. fold (verts c) in A, B. unfold joint. pose proof (proj1 (blk_eq comp c _) B) as E. rewrite E, M. do 2 f_equal. apply (pid_nth (blk c) n x Hx).
Qed.

Lemma joint_fits : fits n k tm joint.
Proof.
  split.
  - intros v Hv. destruct (Hc v Hv) as (c & E & Hcc). unfold joint. rewrite E. destruct (many c) eqn:M.
    + destruct (comp_at c Hcc M) as (q & _ & P & _ & (L & (F1 & _) & _)). assert (X : pid (blk c) v < length (verts c)) by (apply pid_lt; [auto|apply blk_eq; auto]).
      specialize (F1 (pid (blk c) v)). rewrite (po_n _ _ _ _ _ _ _ P), (po_len _ _ _ _ _ _ _ P) in F1. specialize (F1 X). pose proof (nth_In (terms c) 0 F1) as Y. apply terms_In in Y. lia.
    + destruct (terms c) as [|t l] eqn:T; cbn [hd]; [auto|]. assert (Y : In t (terms c)) by (rewrite T; left; auto). apply terms_In in Y. lia.
  - intros v t Hv Et. destruct (Hc v Hv) as (c & E & Hcc). assert (Y : In t (terms c)). { apply terms_In. split; [apply (Htm v t Et)|]. apply hasb_iff. exists v. auto. }
    unfold joint. rewrite E. destruct (many c) eqn:M.
    + destruct (comp_at c Hcc M) as (q & _ & P & _ & (L & (_ & F2) & _)). assert (X : pid (blk c) v < length (verts c)) by (apply pid_lt; [auto|apply blk_eq; auto]).
      apply In_nth with (d := 0) in Y as (i & Hi & <-). specialize (F2 i (pid (blk c) v)). rewrite (po_n _ _ _ _ _ _ _ P), (po_len _ _ _ _ _ _ _ P) in F2. rewrite F2; auto.
      apply (po_terms _ _ _ _ _ _ _ P); auto. rewrite <- Et. f_equal. apply nth_pid; [auto|apply blk_eq; auto].
    + unfold P_Split3.many in M. apply Nat.leb_gt in M. destruct (terms c) as [|t' [|? ?]]; cbn in M; try lia; [destruct Y|destruct Y as [->|[]]; reflexivity].
Qed.

Lemma joint_cost c : c < cc -> ccost c joint = if many c then snd (res c) else 0%N.
Proof.
  intros Hcc. destruct (many c) eqn:M.
  - destruct (comp_at c Hcc M) as (q & _ & P & _ & (L & (F1 & F2) & E & _)). rewrite <- E. symmetry. apply local_eq; [auto|]. intros a b Ha Hb. rewrite !joint_in by auto. split; [|congruence].
    intros X. rewrite (po_n _ _ _ _ _ _ _ P), (po_len _ _ _ _ _ _ _ P) in F1. apply (proj1 (NoDup_nth (terms c) 0) (NoDup_terms k n tm comp c)); auto.
  - apply sumN_zero. intros u Hu. apply sumN_zero. intros v Hv. apply verts_In in Hu as [Hu Eu], Hv as [Hv Ev]. unfold cell, joint. rewrite Eu, Ev, M, Nat.eqb_refl, andb_false_r. reflexivity.
Qed.

Lemma sum_res : sumN snd rs = sumN (fun c => if many c then snd (res c) else 0%N) (seq 0 cc).
Proof.
  rewrite <- sumN_filter. rewrite (sumN_map_nth snd rs ([], 0%N)), (sumN_map_nth _ (filter many (seq 0 cc)) 0). rewrite <- (Forall2_len _ _ _ HS), <- (Forall2_len _ _ _ HP).
  apply bsum_ext. intros i Hi. unfold res. pose proof (pid_nth many cc i Hi) as Q. unfold ext_map in Q. rewrite Q. reflexivity.
Qed.

Theorem sum_optimal : mtcost n W joint = sumN snd rs /\ forall f, fits n k tm f -> (sumN snd rs <= mtcost n W f)%N.
Proof.
  split.
  - rewrite mtcost_comps, sum_res. apply sumN_ext. intros c Hin. apply in_seq in Hin. apply joint_cost. lia.
  - intros f F. rewrite mtcost_comps, sum_res. apply sumN_le. intros c Hin. apply in_seq in Hin. destruct (many c) eqn:M; [|lia].
    destruct (comp_at c ltac:(lia) M) as (q & _ & P & _ & Sq). apply (local_lower c q); auto. apply many_ne; auto.
Qed.

(** ** the assembled solution *)
Context (s : sst).
Hypothesis HI : sinv k n cc tm comp G cc s.
Hypothesis Eprobs : ss_probs s = probs.

Lemma pid_prefix : forall c, (forall c', c' < c -> many c' = true) -> pid many c = c.
Proof. induction c as [|c IH]; intros H; [reflexivity|]. rewrite pid_S, IH by (intros; apply H; lia). rewrite (H c) by lia. lia. Qed.

Lemma global_ok v : v < n -> (forall c c', c' <= c -> c < cc -> many c = true -> many c' = true) -> global_block s comp (map fst rs) v = Some (joint v).
Proof.
  intros Hv PF. destruct HI as (_ & L1 & L2 & L3 & I1 & I2). destruct (Hc v Hv) as (c & E & Hcc). destruct (I1 v c Hv E) as [A B].
  unfold global_block. rewrite (nth_error_nth' (ss_npm s) None) by lia. rewrite (nth_error_nth' comp None), (nth_error_nth' (ss_pip s) None), A, B, E by lia.
  destruct (Nat.ltb_spec c cc); [|lia]. cbn [andb]. unfold joint. rewrite E. destruct (many c) eqn:M.
  - destruct (comp_at c Hcc M) as (q & Eq & P & Er & (L & (F1 & _) & _)). rewrite pid_prefix in Eq, Er by (intros c' Hc'; apply (PF c c'); auto; lia).
    rewrite (map_nth_error fst _ _ Er), Eprobs, Eq. assert (X : pid (blk c) v < length (verts c)) by (apply pid_lt; [auto|apply blk_eq; auto]).
    specialize (F1 (pid (blk c) v)). rewrite (po_n _ _ _ _ _ _ _ P) in F1, L. rewrite (nth_error_nth' (fst (res c)) 0) by lia. rewrite (po_gti _ _ _ _ _ _ _ P).
    apply nth_error_nth'. rewrite <- (po_len _ _ _ _ _ _ _ P). auto.
  - rewrite (nth_error_nth' (ss_one s) None) by lia. destruct (I2 c Hcc) as [J1 J2]. unfold P_Split3.many in M. apply Nat.leb_gt in M.
    destruct (Nat.eq_dec (length (terms c)) 1) as [E1|E1].
    + destruct (J1 Hcc E1) as (t & -> & Ht). destruct (terms c) as [|t' [|? ?]]; cbn in *; try lia. destruct Ht as [->|[]]. reflexivity.
    + rewrite (J2 E1). destruct (terms c) as [|t' [|? ?]]; cbn in *; try lia. reflexivity.
Qed.

Lemma assemble_ok : (forall c c', c' <= c -> c < cc -> many c = true -> many c' = true) -> forall is, (forall i, In i is -> i < n) -> assemble k s comp (map fst rs) is = Some (map joint is).
Proof.
  intros PF. induction is as [|i is IH]; intros H; [reflexivity|]. cbn [assemble map]. rewrite global_ok by (auto; apply H; left; auto). destruct joint_fits as [F _].
  destruct (Nat.ltb_spec (joint i) k) as [_|X]; [|specialize (F i (H i (or_introl eq_refl))); lia]. rewrite IH by (intros; apply H; right; auto). reflexivity.
Qed.

Lemma pid_le_len : forall c, pid many c <= c.
Proof. induction c as [|c IH]; [auto|]. rewrite pid_S. destruct (many c); lia. Qed.
Lemma pid_gap c0 c : c0 < c -> many c0 = false -> pid many c < c.
Proof.
  induction 1 as [|c L IH]; intros M.
  - rewrite pid_S, M. pose proof (pid_le_len c0). lia.
  - rewrite pid_S. specialize (IH M). destruct (many c); lia.
Qed.

(** if a component without a problem comes before one with a problem, solutions is read out of range *)
Lemma assemble_none c c' : c' < c -> c < cc -> many c = true -> many c' = false -> assemble k s comp (map fst rs) (seq 0 n) = None.
Proof.
  intros L Hcc M M'.
  (* the last component with a problem *)
  assert (LAST : exists d, d < cc /\ many d = true /\ c' < d /\ forall e, d < e -> e < cc -> many e = false).
  { clear - L Hcc M. remember (cc - c) as g eqn:Hg. revert c Hg L Hcc M. induction g as [g IHg] using lt_wf_ind. intros c Hg L Hcc M.
    destruct (existsb (fun e => (c <? e) && many e) (seq 0 cc)) eqn:X.
    - apply existsb_exists in X as (e & He & Y). apply in_seq in He. apply andb_prop in Y as [Y1 Y2]. apply Nat.ltb_lt in Y1. apply (IHg (cc - e)) with (c := e); auto; lia.
    - exists c. split; [auto|]. split; [auto|]. split; [auto|]. intros e He1 He2. destruct (many e) eqn:Me; [|auto]. exfalso. apply Bool.not_true_iff_false in X. apply X. apply existsb_exists. exists e. rewrite in_seq. split; [lia|]. apply Nat.ltb_lt in He1. rewrite He1, Me. reflexivity. }
  destruct LAST as (d & Hd & Md & Ld & Last).
  assert (LL : length rs = pid many (S d)).
  { rewrite <- (Forall2_len _ _ _ HS), <- (Forall2_len _ _ _ HP). change (pid many cc = pid many (S d)). clear - Last Hd. assert (forall g, d < g -> g <= cc -> pid many g = pid many (S d)) as Y.
    { induction g as [|g IH]; intros A B; [lia|]. destruct (Nat.eq_dec g d) as [->|]; [auto|]. rewrite pid_S, IH by lia. rewrite (Last g) by lia. lia. }
    apply Y; lia. }
  pose proof (pid_gap c' d Ld M') as Gd. rewrite pid_S, Md in LL.
  assert (V : exists v, v < n /\ nth v comp None = Some d).
  { destruct (terms d) as [|t l] eqn:T; [apply many_ne in Md; congruence|]. assert (Y : In t (terms d)) by (rewrite T; left; auto). apply terms_In in Y as [_ Y]. apply hasb_iff in Y as (v & A & B & _). exists v. auto. }
  destruct V as (v & Hv & E).
  assert (NB : global_block s comp (map fst rs) v = None).
  { destruct HI as (_ & L1 & L2 & L3 & I1 & I2). destruct (I1 v d Hv E) as [A B]. unfold global_block. rewrite (nth_error_nth' (ss_npm s) None), A by lia. destruct (Nat.ltb_spec d cc); [|lia]. rewrite Md. cbn [andb].
    replace (nth_error (map fst rs) d) with (@None (list nat)); [reflexivity|]. symmetry. apply nth_error_None. rewrite map_length. lia. }
  assert (AN : forall is, In v is -> assemble k s comp (map fst rs) is = None).
  { induction is as [|i is IH]; [intros []|]. intros [<-|Hi]; cbn [assemble]; [rewrite NB; auto|]. rewrite (IH Hi). destruct (global_block _ _ _ i); [|auto]. destruct (_ <? _); auto. }
  apply AN, in_seq. lia.
Qed.
End Cost.
