(* P_FlowStore.v - flows stored in the graph under a problem id behave like a flow vector of the solver. *)
From Verif Require Import SpecFlow P_Mutable M_PushRelabel P_Flow.

Inductive fop := FGet (v e : nat) | FAdd (v e : nat) (x : Z).

Fixpoint run_stored (pid : N) (ops : list fop) (g : gflows) : list Z :=
  match ops with
  | [] => []
  | FGet v e :: ops' => let '(g', x) := g_get g v e pid in x :: run_stored pid ops' g'
  | FAdd v e x :: ops' => run_stored pid ops' (g_add g v e x pid)
  end.
Fixpoint run_own (ops : list fop) (fl : list (list Z)) : list Z :=
  match ops with
  | [] => []
  | FGet v e :: ops' => eflow fl v e :: run_own ops' fl
  | FAdd v e x :: ops' => run_own ops' (add_flow fl v e x)
  end.

Definition reads (pid : N) (g : gflows) (v e : nat) : Z :=
  let '(f, p) := nth e (nth v g []) (0%Z, 0%N) in if (p =? pid)%N then f else 0%Z.
Definition fop_range {A} (g : list (list A)) (o : fop) : Prop :=
  match o with FGet v e | FAdd v e _ => v < length g /\ e < length (nth v g []) end.

Lemma gset_at (g : gflows) v e y a b : v < length g -> e < length (nth v g []) ->
  nth b (nth a (upd g v (upd (nth v g []) e y)) []) (0%Z, 0%N) = if (a =? v) && (b =? e) then y else nth b (nth a g []) (0%Z, 0%N).
Proof.
  intros Hv He. destruct (Nat.eqb_spec a v) as [->|N]; cbn [andb].
  - rewrite nth_upd_eq by auto. destruct (Nat.eqb_spec b e) as [->|M]; [apply nth_upd_eq; auto|apply nth_upd_neq; auto].
  - rewrite nth_upd_neq by auto. reflexivity.
Qed.
Lemma gset_shape {A} (g : list (list A)) v row a : length row = length (nth v g []) -> length (nth a (upd g v row) []) = length (nth a g []).
Proof.
  intro L. rewrite nth_upd. destruct ((a =? v) && (v <? length g)) eqn:B; [|reflexivity]. apply andb_prop in B. destruct B as [B _]. apply Nat.eqb_eq in B. subst. auto.
Qed.
Lemma fop_range_shape {A B} (g : list (list A)) (h : list (list B)) o : length g = length h -> (forall v, length (nth v g []) = length (nth v h [])) ->
  fop_range g o -> fop_range h o.
Proof. intros L1 L2. destruct o; cbn; rewrite L1, L2; auto. Qed.

Lemma stored_own pid ops : forall g fl, length g = length fl -> (forall v, length (nth v g []) = length (nth v fl [])) ->
  Forall (fop_range g) ops -> (forall v e, reads pid g v e = eflow fl v e) -> run_stored pid ops g = run_own ops fl.
Proof.
  induction ops as [|o ops IH]; intros g fl L1 L2 Hr Hq; [reflexivity|]. inversion Hr as [|? ? H1 H2]. subst.
  destruct o as [v e|v e x]; cbn [run_stored run_own]; destruct H1 as [Hv He].
  - pose proof (Hq v e) as E. unfold g_get. unfold reads in E. destruct (nth e (nth v g []) (0%Z, 0%N)) as [f p] eqn:N. destruct (N.eqb_spec p pid) as [->|Np].
    + rewrite E. f_equal. apply IH; auto.
    + f_equal; [auto|]. set (g' := upd g v _). assert (S1 : length g' = length g) by apply upd_length.
      assert (S2 : forall a, length (nth a g' []) = length (nth a g [])) by (intro; apply gset_shape; apply upd_length). apply IH.
      * congruence. * intro a. rewrite S2. auto.
      * eapply Forall_impl; [|exact H2]. intros o Ho. eapply fop_range_shape; [| |exact Ho]; auto.
      * intros a b. rewrite <- Hq. unfold reads, g'. rewrite gset_at by auto. destruct (Nat.eqb_spec a v) as [->|]; [destruct (Nat.eqb_spec b e) as [->|]|]; cbn [andb]; auto.
        rewrite N. rewrite N.eqb_refl. destruct (N.eqb_spec p pid); [contradiction|reflexivity].
  - pose proof (Hq v e) as E. unfold g_add. unfold reads in E. destruct (nth e (nth v g []) (0%Z, 0%N)) as [f p] eqn:N.
    set (g' := upd g v _). assert (S1 : length g' = length g) by apply upd_length.
    assert (S2 : forall a, length (nth a g' []) = length (nth a g [])) by (intro; apply gset_shape; apply upd_length).
    assert (Hv' : v < length fl) by congruence. assert (He' : e < length (nth v fl [])) by (rewrite <- L2; auto). apply IH.
    + rewrite add_flow_length. congruence.
    + intro a. rewrite add_flow_row, S2. auto.
    + eapply Forall_impl; [|exact H2]. intros o Ho. eapply fop_range_shape; [| |exact Ho]; auto.
    + intros a b. rewrite add_flow_at by auto. rewrite <- Hq. unfold reads at 1, g'. rewrite gset_at by auto.
      destruct (Nat.eqb_spec a v) as [->|]; [destruct (Nat.eqb_spec b e) as [->|]|]; cbn [andb]; try (unfold reads; destruct (nth b (nth _ g []) (0%Z, 0%N)) as [f' p']; destruct (p' =? pid)%N; lia).
      unfold reads. rewrite N. destruct (p =? pid)%N; rewrite N.eqb_refl; lia.
Qed.
