(* P_Iso.v - isolating cuts and multiterminal cuts: blocks of minimum isolating cuts can be contracted. *)
From Verif Require Import SpecFlow P_Cut P_Multi P_Kernel3.

(** every unordered pair counted from both ends *)
Definition dcut (n : nat) (W : wfun) (S : nat -> bool) : N :=
  bsum n (fun u => bsum n (fun v => if xorb (S u) (S v) then W u v else 0%N)).

Lemma dcut_twice n W S : symm n W -> dcut n W S = (2 * cutw n W S)%N.
Proof.
  intro Sy. transitivity (cutw n W S + cutw n W S)%N; [|lia].
  transitivity (cutw n W S + cutw n W (fun u => negb (S u)))%N; [|rewrite cutw_compl by auto; reflexivity].
  unfold dcut, cutw. rewrite <- bsum_add. apply bsum_ext. intros u _. rewrite <- bsum_add. apply bsum_ext. intros v _.
  destruct (S u), (S v); cbn; lia.
Qed.

Lemma bsum2_le n (W : wfun) (a b c d : nat -> nat -> bool) :
  (forall u v, u < n -> v < n -> Nat.b2n (a u v) + Nat.b2n (b u v) <= Nat.b2n (c u v) + Nat.b2n (d u v)) ->
  (bsum n (fun u => bsum n (fun v => if a u v then W u v else 0%N)) + bsum n (fun u => bsum n (fun v => if b u v then W u v else 0%N)) <=
   bsum n (fun u => bsum n (fun v => if c u v then W u v else 0%N)) + bsum n (fun u => bsum n (fun v => if d u v then W u v else 0%N)))%N.
Proof.
  intro H. rewrite <- !bsum_add. apply bsum_le. intros u Hu. rewrite <- !bsum_add. apply bsum_le. intros v Hv.
  specialize (H u v Hu Hv). destruct (a u v), (b u v), (c u v), (d u v); cbn in H; lia.
Qed.

Lemma dcost_bool n W f : dcost n W f = bsum n (fun u => bsum n (fun v => if negb (f u =? f v) then W u v else 0%N)).
Proof. apply bsum_ext. intros u _. apply bsum_ext. intros v _. destruct (f u =? f v); reflexivity. Qed.

Definition minus (A B : nat -> bool) (v : nat) : bool := A v && negb (B v).

Lemma posimodular n W A B : symm n W -> (cutw n W (minus A B) + cutw n W (minus B A) <= cutw n W A + cutw n W B)%N.
Proof.
  intro Sy. cut (dcut n W (minus A B) + dcut n W (minus B A) <= dcut n W A + dcut n W B)%N; [rewrite !dcut_twice by auto; lia|].
  apply bsum2_le. intros u v _ _. unfold minus. destruct (A u), (A v), (B u), (B v); cbn; lia.
Qed.

Section Iso.
Context (n : nat) (W : wfun) (ts : list nat) (Sy : symm n W).

Lemma iso_minus s t A B c d : In s ts -> In t ts -> s <> t -> min_isolating n W ts s A c -> min_isolating n W ts t B d ->
  min_isolating n W ts s (minus A B) c.
Proof.
  intros Hs Ht N [[A1 A2] [A3 A4]] [[B1 B2] [B3 B4]].
  assert (IA : isolating ts s (minus A B)).
  { split; [unfold minus; rewrite A1, (B2 s) by auto; reflexivity|]. intros x Hx Nx. unfold minus. rewrite A2 by auto. reflexivity. }
  assert (IB : isolating ts t (minus B A)).
  { split; [unfold minus; rewrite B1, (A2 t) by auto; reflexivity|]. intros x Hx Nx. unfold minus. rewrite B2 by auto. reflexivity. }
  pose proof (A4 _ IA). pose proof (B4 _ IB). pose proof (posimodular n W A B Sy). split; [auto|]. split; [lia|auto].
Qed.

(** moving a minimum isolating set into the block of its source *)
Definition mvs (f : nat -> nat) (S : nat -> bool) (b v : nat) : nat := if S v then b else f v.

Lemma iso_move s A c f : min_isolating n W ts s A c -> (mtcost n W (mvs f A (f s)) <= mtcost n W f)%N.
Proof.
  intros [[A1 A2] [A3 A4]]. set (B := fun v => A v && (f v =? f s)).
  assert (IB : isolating ts s B).
  { split; [unfold B; rewrite A1, Nat.eqb_refl; reflexivity|]. intros x Hx Nx. unfold B. rewrite A2 by auto. reflexivity. }
  pose proof (A4 _ IB) as L. cut (dcost n W (mvs f A (f s)) + dcut n W B <= dcost n W f + dcut n W A)%N.
  { rewrite !dcost_half, !dcut_twice by auto. lia. }
  rewrite !dcost_bool. apply bsum2_le. intros u v _ _. unfold mvs, B.
  destruct (A u), (A v); cbn [andb]; rewrite ?Nat.eqb_refl; destruct (Nat.eqb_spec (f u) (f s)), (Nat.eqb_spec (f v) (f s)), (Nat.eqb_spec (f u) (f v)); cbn [xorb negb andb]; rewrite ?Nat.eqb_refl; cbn [xorb negb Nat.b2n]; try congruence; try lia;
  repeat match goal with |- context[Nat.eqb ?a ?b] => destruct (Nat.eqb_spec a b); try congruence end; cbn; lia.
Qed.

Lemma mvs_separates s A f : NoDup ts -> In s ts -> separates n ts f -> isolating ts s A -> (forall t, In t ts -> t < n) -> separates n ts (mvs f A (f s)).
Proof.
  intros Nd Hs [F1 F2] [A1 A2] Ht. split.
  - intros v Hv. unfold mvs. destruct (A v); auto.
  - intros i Hi. unfold mvs. destruct (A (nth i ts 0)) eqn:E; [|auto]. destruct (Nat.eq_dec (nth i ts 0) s) as [<-|N]; [auto|].
    rewrite A2 in E by (auto using nth_In). discriminate E.
Qed.

(** blocks in order: a vertex belongs to the first block that contains it *)
Fixpoint disjoint_blocks (bl : list (nat * (nat -> bool))) (used : nat -> bool) : list (nat * (nat -> bool)) :=
  match bl with
  | [] => []
  | (s, A) :: bl' => (s, minus A used) :: disjoint_blocks bl' (fun v => used v || A v)
  end.

Lemma iso_minus_list s A c (dn : list (nat * (nat -> bool))) : In s ts -> ~ In s (map fst dn) -> min_isolating n W ts s A c ->
  (forall t B, In (t, B) dn -> In t ts /\ exists d, min_isolating n W ts t B d) ->
  min_isolating n W ts s (minus A (fun v => existsb (fun p => snd p v) dn)) c.
Proof.
  intros Hs. revert A. induction dn as [|[t B] dn IH]; intros A Ns M H.
  - destruct M as [[A1 A2] [A3 A4]]. assert (E : forall v, minus A (fun _ => existsb (fun p : nat * (nat -> bool) => snd p v) []) v = A v) by (intro v; unfold minus; cbn; apply andb_true_r).
    split; [|split; [|auto]].
    + split; [unfold minus; cbn; rewrite A1; reflexivity|]. intros x Hx Nx. unfold minus. rewrite A2; auto.
    + rewrite <- A3. apply cutw_ext. intros u _. unfold minus. cbn. apply andb_true_r.
  - destruct (H t B (or_introl eq_refl)) as [Ht [d MB]]. assert (N : s <> t) by (intro; subst; apply Ns; left; reflexivity).
    pose proof (iso_minus s t A B c d Hs Ht N M MB) as M1.
    assert (M2 : min_isolating n W ts s (minus (minus A B) (fun v => existsb (fun p => snd p v) dn)) c).
    { apply IH; auto. - intro X. apply Ns. right. auto. - intros x C HC. apply H. right. auto. }
    assert (E : forall v, minus (minus A B) (fun v => existsb (fun p => snd p v) dn) v = minus A (fun v => existsb (fun p => snd p v) ((t, B) :: dn)) v).
    { intro v. unfold minus. cbn. destruct (A v), (B v), (existsb (fun p => snd p v) dn); reflexivity. }
    destruct M2 as [[C1 C2] [C3 C4]]. split; [|split; [|auto]].
    + split; [rewrite <- E; auto|]. intros x Hx Nx. rewrite <- E. auto.
    + rewrite <- C3. apply cutw_ext. intros u _. symmetry. apply E.
Qed.

Lemma disjoint_ok bl : forall dn used, NoDup (map fst dn ++ map fst bl) ->
  (forall t B, In (t, B) dn -> In t ts /\ exists d, min_isolating n W ts t B d) ->
  (forall s A, In (s, A) bl -> In s ts /\ exists c, min_isolating n W ts s A c) ->
  (forall v, used v = existsb (fun p => snd p v) dn) ->
  forall s A, In (s, A) (disjoint_blocks bl used) -> In s ts /\ exists c, min_isolating n W ts s A c.
Proof.
  induction bl as [|[s A] bl IH]; intros dn used Nd Hd Hb Hu s' A' Hi; [contradiction|]. cbn [disjoint_blocks] in Hi.
  destruct (Hb s A (or_introl eq_refl)) as [Hs [c M]]. pose proof Nd as Nd0. cbn [map fst] in Nd0. apply NoDup_remove in Nd0. destruct Nd0 as [_ Ns].
  assert (M1 : min_isolating n W ts s (minus A used) c).
  { pose proof (iso_minus_list s A c dn Hs ltac:(intro; apply Ns; apply in_or_app; auto) M Hd) as M2.
    destruct M2 as [[C1 C2] [C3 C4]]. assert (E : forall v, minus A used v = minus A (fun v => existsb (fun p => snd p v) dn) v) by (intro v; unfold minus; rewrite Hu; reflexivity).
    split; [|split; [|auto]].
    + split; [rewrite E; auto|]. intros x Hx Nx. rewrite E. auto.
    + rewrite <- C3. apply cutw_ext. intros u _. apply E. }
  destruct Hi as [E|Hi]; [injection E as <- <-; split; [auto|]; exists c; auto|].
  apply (IH (dn ++ [(s, minus A used)]) (fun v => used v || A v)) with (s := s') (A := A'); auto.
  - rewrite map_app, <- app_assoc. cbn. exact Nd.
  - intros t B H. apply in_app_or in H. destruct H as [H|[H|[]]]; [auto|]. injection H as <- <-. split; [auto|]. exists c. auto.
  - intros t B H. apply Hb. right. auto.
  - intro v. rewrite existsb_app, <- Hu. cbn. unfold minus. destruct (used v), (A v); reflexivity.
Qed.

Lemma disjoint_used bl : forall used s A v, In (s, A) (disjoint_blocks bl used) -> A v = true -> used v = false.
Proof.
  induction bl as [|[s A] bl IH]; intros used s' A' v H E; [contradiction|]. cbn [disjoint_blocks] in H. destruct H as [H|H].
  - injection H as <- <-. unfold minus in E. apply andb_prop in E. destruct (used v); [destruct E; discriminate|reflexivity].
  - apply (IH _ _ _ v) in H; auto. apply orb_false_elim in H. tauto.
Qed.
Lemma disjoint_keys bl : forall used, map fst (disjoint_blocks bl used) = map fst bl.
Proof. induction bl as [|[s A] bl IH]; intro used; cbn; [reflexivity|]. f_equal. apply IH. Qed.

Definition together (bl : list (nat * (nat -> bool))) (u v : nat) : Prop := u = v \/ exists s A, In (s, A) bl /\ A u = true /\ A v = true.

(** pairwise disjoint minimum isolating sets: every assignment can be made constant on each *)
Lemma blocks_safe bl : NoDup ts -> (forall t, In t ts -> t < n) ->
  (forall s A, In (s, A) bl -> In s ts /\ exists c, min_isolating n W ts s A c) ->
  ForallOrdPairs (fun p q => forall v, snd p v = true -> snd q v = false) bl ->
  safe_pairs n W ts (together bl).
Proof.
  intros Nd Ht Hb D f F.
  assert (G : exists f', separates n ts f' /\ (mtcost n W f' <= mtcost n W f)%N /\ forall s A, In (s, A) bl -> forall u v, A u = true -> A v = true -> f' u = f' v).
  { clear - Sy Nd Ht Hb D F. revert f F. induction bl as [|[s A] bl IH]; intros f F.
    - exists f. split; [auto|]. split; [lia|]. intros ? ? [].
    - inversion D as [|? ? D1 D2]. subst. destruct (IH ltac:(intros; apply Hb; right; auto) D2 f F) as (f1 & F1 & L1 & C1).
      destruct (Hb s A (or_introl eq_refl)) as [Hs [c M]]. exists (mvs f1 A (f1 s)). split; [apply mvs_separates; auto; apply M|].
      split; [pose proof (iso_move s A c f1 M); lia|]. intros s' A' [E|H] u v Hu Hv.
      + injection E as <- <-. unfold mvs. rewrite Hu, Hv. reflexivity.
      + rewrite Forall_forall in D1. pose proof (D1 _ H) as Q. cbn [snd] in Q. unfold mvs.
        assert (A u = false) by (destruct (A u) eqn:E; [rewrite (Q u E) in Hu; discriminate|auto]).
        assert (A v = false) by (destruct (A v) eqn:E; [rewrite (Q v E) in Hv; discriminate|auto]).
        rewrite H0, H1. eapply C1; eauto. }
  destruct G as (f' & F' & L & C). exists f'. split; [auto|]. split; [auto|]. intros a b _ _ [->|(s & A & H & Ha & Hb')]; [reflexivity|]. eapply C; eauto.
Qed.

Lemma disjoint_pairs bl : forall used, ForallOrdPairs (fun p q => forall v, snd p v = true -> snd q v = false) (disjoint_blocks bl used).
Proof.
  induction bl as [|[s A] bl IH]; intro used; cbn [disjoint_blocks]; constructor; [|apply IH].
  apply Forall_forall. intros [t B] H v Hv. cbn [snd] in *. destruct (B v) eqn:E; [|reflexivity].
  apply (disjoint_used _ _ _ _ v H) in E. unfold minus in Hv. apply andb_prop in Hv. destruct Hv as [Hv _]. rewrite Hv, orb_true_r in E. discriminate E.
Qed.

(** ** the bounds *)
Lemma sum_cuts f k : (forall v, v < n -> f v < k) -> dcost n W f = bsum k (fun i => cutw n W (fun v => f v =? i)).
Proof.
  intro Hf. unfold cutw, dcost. rewrite bsum_swap with (n := k). apply bsum_ext. intros u Hu. rewrite bsum_swap. apply bsum_ext. intros v Hv.
  destruct (Nat.eqb_spec (f u) (f v)) as [E|E].
  - symmetry. apply bsum_zero. intros i _. rewrite E. destruct (f v =? i); reflexivity.
  - rewrite (bsum_ext k _ (fun i => if i =? f u then W u v else 0%N)).
    + rewrite (bsum_single k (fun _ => W u v) (f u)); auto.
    + intros i _. rewrite (Nat.eqb_sym i). destruct (Nat.eqb_spec (f u) i) as [<-|]; [|reflexivity]. destruct (Nat.eqb_spec (f v) (f u)); [congruence|reflexivity].
Qed.

Lemma lower_bound f (c : nat -> N) : NoDup ts -> separates n ts f ->
  (forall i S, i < length ts -> isolating ts (nth i ts 0) S -> (c i <= cutw n W S)%N) ->
  (bsum (length ts) c <= 2 * mtcost n W f)%N.
Proof.
  intros Nd [F1 F2] H. rewrite <- dcost_half by auto. rewrite (sum_cuts f (length ts)) by auto. apply bsum_le. intros i Hi.
  apply H; auto. split; [rewrite F2 by auto; apply Nat.eqb_refl|]. intros t Ht Nt. apply In_nth with (d := 0) in Ht. destruct Ht as (j & Hj & <-).
  rewrite F2 by auto. apply Nat.eqb_neq. congruence.
Qed.

(** the assignment that leaves every terminal alone and puts the rest to terminal m *)
Lemma upper_bound f m : separates n ts f -> (forall v, v < n -> ~ In v ts -> f v = m) -> m < length ts ->
  (mtcost n W f + cutw n W (fun v => Nat.eqb v (nth m ts 0%nat)) <= bsum (length ts) (fun i => cutw n W (fun v => Nat.eqb v (nth i ts 0%nat))))%N.
Proof.
  intros [F1 F2] Hm Lm. set (d := fun i => cutw n W (fun v => v =? nth i ts 0)).
  assert (E : forall i, i < length ts -> i <> m -> cutw n W (fun v => f v =? i) = d i).
  { intros i Hi Ni. apply cutw_ext. intros v Hv. apply eq_true_iff_eq. rewrite !Nat.eqb_eq. split; [|intros ->; auto].
    intro E. destruct (in_dec Nat.eq_dec v ts) as [X|X]; [|rewrite Hm in E by auto; congruence].
    apply In_nth with (d := 0) in X. destruct X as (j & Hj & <-). rewrite F2 in E by auto. congruence. }
  assert (M : (cutw n W (fun v => Nat.eqb (f v) m) <= bsum (length ts) (fun i => if Nat.eqb i m then 0 else d i))%N).
  { rewrite <- cutw_compl by auto. unfold cutw.
    transitivity (bsum (length ts) (fun i => if i =? m then 0%N else cutw n W (fun v => f v =? i))).
    2:{ apply bsum_le. intros i Hi. destruct (Nat.eqb_spec i m); [lia|]. rewrite E by auto. lia. }
    unfold cutw. transitivity (bsum n (fun u => bsum (length ts) (fun i => if i =? m then 0%N else bsum n (fun v => if (f u =? i) && negb (f v =? i) then W u v else 0%N)))).
    2:{ rewrite bsum_swap. apply bsum_le. intros i Hi. destruct (i =? m); [apply N.eq_le_incl, bsum_zero; reflexivity|apply N.le_refl]. }
    apply bsum_le. intros u Hu. destruct (Nat.eqb_spec (f u) m) as [e|Nu]; [rewrite bsum_zero; [lia|intros; reflexivity]|].
    transitivity (if f u =? m then 0%N else bsum n (fun v => if (f u =? f u) && negb (f v =? f u) then W u v else 0%N)).
    2:{ apply (bsum_In_le (length ts) (fun i => if i =? m then 0%N else bsum n (fun v => if (f u =? i) && negb (f v =? i) then W u v else 0%N))). auto. }
    destruct (Nat.eqb_spec (f u) m); [contradiction|]. apply bsum_le. intros v Hv. rewrite Nat.eqb_refl. cbn [negb andb].
    destruct (Nat.eqb_spec (f v) m) as [Ev|]; cbn [negb]; [|lia]. rewrite Ev. destruct (Nat.eqb_spec m (f u)); [congruence|cbn; lia]. }
  change (mtcost n W f + d m <= bsum (length ts) d)%N. cut (2 * (mtcost n W f + d m) <= 2 * bsum (length ts) d)%N; [lia|].
  rewrite N.mul_add_distr_l, <- dcost_half by auto. rewrite (sum_cuts f (length ts)) by auto.
  rewrite (bsum_split (length ts) (fun i => cutw n W (fun v => f v =? i)) (fun i => i =? m)).
  rewrite (bsum_single (length ts) (fun i => cutw n W (fun v => f v =? i)) m Lm).
  rewrite (bsum_ext (length ts) (fun i => if i =? m then 0%N else cutw n W (fun v => f v =? i)) (fun i => if i =? m then 0%N else d i)).
  2:{ intros i Hi. destruct (Nat.eqb_spec i m); [reflexivity|]. apply E; auto. }
  pose proof (bsum_split (length ts) d (fun i => i =? m)) as Q. pose proof (bsum_single (length ts) d m Lm) as Q1. cbn beta in Q. clearbody d. rewrite Q1 in Q. lia.
Qed.
End Iso.
