(* SpecRel.v - specification: equivalence closure of a list of pairs and the
   number of its classes on [0,n).  Independent of any model. *)
From Verif Require Export Lib.

(** [conn ps x y]: x and y are connected by the pairs in [ps]. *)
Inductive conn (ps : list (nat * nat)) : nat -> nat -> Prop :=
| conn_refl : forall x, conn ps x x
| conn_pair : forall x y, In (x, y) ps -> conn ps x y
| conn_sym  : forall x y, conn ps x y -> conn ps y x
| conn_trans : forall x y z, conn ps x y -> conn ps y z -> conn ps x z.

(** [classes n R k]: the relation R has exactly k classes on [0,n): there is a
    list of k pairwise unrelated representatives covering everything. *)
Definition classes (n : nat) (R : nat -> nat -> Prop) (k : nat) : Prop :=
  exists reps, length reps = k /\ NoDup reps /\
    (forall r, In r reps -> r < n) /\
    (forall r r', In r reps -> In r' reps -> R r r' -> r = r') /\
    (forall x, x < n -> exists r, In r reps /\ R x r).

Lemma conn_mono ps ps' x y : incl ps ps' -> conn ps x y -> conn ps' x y.
Proof.
  intros Hi H. induction H.
  - apply conn_refl.
  - apply conn_pair; auto.
  - now apply conn_sym.
  - eapply conn_trans; eauto.
Qed.

Lemma conn_in_relation ps (R : nat -> nat -> Prop) :
  (forall x, R x x) -> (forall x y, R x y -> R y x) -> (forall x y z, R x y -> R y z -> R x z) ->
  (forall x y, In (x, y) ps -> R x y) -> forall x y, conn ps x y -> R x y.
Proof. intros Hr Hs Ht Hp x y H. induction H; eauto. Qed.

(** The number of classes is unique. *)
Lemma classes_unique n (R : nat -> nat -> Prop) (k k' : nat) :
  (forall x y, R x y -> R y x) -> (forall x y z, R x y -> R y z -> R x z) ->
  classes n R k -> classes n R k' -> k = k'.
Proof.
  intros Hs Ht.
  assert (Hle : forall k k', classes n R k -> classes n R k' -> k <= k').
  { clear k k'. intros k k' (reps & Hl & Hnd & Hlt & Huniq & _) (reps' & Hl' & _ & _ & _ & Hcov').
    subst k k'.
    assert (Hmap : exists g, (forall r, In r reps -> In (g r) reps' /\ R r (g r))).
    { clear - Hlt Hcov'. induction reps as [|r reps IH].
      - exists (fun x => x). easy.
      - destruct IH as [g Hg]; [auto with datatypes|].
        destruct (Hcov' r) as (r' & Hr' & HR); [auto with datatypes|].
        exists (fun x => if x =? r then r' else g x). intros x [->|Hx].
        + rewrite Nat.eqb_refl. auto.
        + destruct (Nat.eqb_spec x r); [subst; auto|auto]. }
    destruct Hmap as [g Hg].
    rewrite <- (map_length g). apply NoDup_incl_length.
    - clear - Hnd Huniq Hg Hs Ht. induction reps as [|r reps IH]; [constructor|].
      apply NoDup_cons_iff in Hnd as [Hr Hnd]. simpl. constructor.
      + intros Hin. apply in_map_iff in Hin as (r2 & Heq & Hin).
        assert (r = r2).
        { apply Huniq; [left; reflexivity|right; exact Hin|].
          apply Ht with (g r); [apply Hg; left; reflexivity|].
          rewrite <- Heq. apply Hs, Hg. right; exact Hin. }
        subst. contradiction.
      + apply IH; auto with datatypes.
    - intros y Hy. apply in_map_iff in Hy as (r & <- & Hin). now apply Hg. }
  intros H1 H2. apply Nat.le_antisymm; eauto.
Qed.
