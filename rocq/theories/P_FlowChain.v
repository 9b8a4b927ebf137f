(* P_FlowChain.v - the strongly connected components of the residual graph of a maximum flow, in the order of their numbers,
   form a chain of minimum cuts. *)
From Coq Require Import Relations.
From Verif Require Import SpecCut LibZ P_Mutable M_PushRelabel P_Flow P_Flow2 P_Flow6 P_MutableIO P_Cut Prop_StCactus SpecHop M_Scc P_Scc Prop_Scc.

Section Chain.
Context (R : list (list half)) (V : valid_rows R).
Let n := length R.
Let W := wt (adj R).
Context (fl : list (list Z)) (x : Z) (s t : nat) (Hs : s < n) (Ht : t < n) (Nst : s <> t).
Context (Cap : forall v e u w r, slot R v e = Some (u, w, r) -> (eflow fl v e <= Z.of_N w)%Z).
Context (Out : forall S, out_flow R fl S = ((if (S s : bool) then x else 0) - (if S t then x else 0))%Z).

(** a residual edge *)
Definition redge (u v : nat) : Prop := exists e w r, slot R u e = Some (v, w, r) /\ eflow fl u e <> Z.of_N w.
Definition closed (S : nat -> bool) : Prop := forall u v, redge u v -> S u = true -> S v = true.

Lemma closed_cut S : closed S -> Z.of_N (cutw n W S) = ((if S s then x else 0) - (if S t then x else 0))%Z.
Proof.
  intro C. rewrite <- Out. symmetry. apply out_flow_eq. intros u v Hu Hv Su Sv e w r Sl. destruct (Z.eq_dec (eflow fl u e) (Z.of_N w)) as [|N]; [auto|].
  rewrite (C u v ltac:(exists e, w, r; auto) Su) in Sv. discriminate Sv.
Qed.

Lemma tight_closed S : out_flow R fl S = Z.of_N (cutw n W S) -> closed S.
Proof.
  intros E u v (e & w & r & Sl & Ne) Su. destruct (S v) eqn:Sv; [auto|exfalso]. destruct (V u e v w r Sl) as [Hv _]. destruct (slot_lt _ _ _ _ Sl) as [Hu He]. fold n in Hu, Hv.
  assert (P1 : (Phi R fl u v < Z.of_N (W u v))%Z).
  { unfold W. rewrite wt_zsum. unfold Phi. set (f := fun e => match slot R u e with Some (t, _, _) => if t =? v then eflow fl u e else 0%Z | None => 0%Z end).
    set (g := fun e => match slot R u e with Some (t, w, _) => if t =? v then Z.of_N w else 0%Z | None => 0%Z end).
    assert (LE : forall i, i < rl R u -> (f i <= g i)%Z).
    { intros i Hi. unfold f, g. destruct (slot R u i) as [[[t' w'] r']|] eqn:Si; [|lia]. destruct (t' =? v); [|lia]. eapply Cap; eauto. }
    destruct (Z.lt_ge_cases (zsum (rl R u) f) (zsum (rl R u) g)) as [|GE]; [auto|exfalso]. pose proof (zsum_le (rl R u) f g LE) as LE'.
    assert (Z0 : zsum (rl R u) (fun i => (g i - f i)%Z) = 0%Z) by (rewrite zsum_sub; lia).
    pose proof (zsum_pos (rl R u) (fun i => (g i - f i)%Z) ltac:(intros i Hi; specialize (LE i Hi); lia) Z0 e He) as X. cbn beta in X. unfold f, g in X. rewrite Sl, Nat.eqb_refl in X. lia. }
  assert (PL : forall a b, (Phi R fl a b <= Z.of_N (W a b))%Z).
  { intros a b. unfold W. rewrite wt_zsum. unfold Phi. apply zsum_le. intros i _. destruct (slot R a i) as [[[t' w'] r']|] eqn:Si; [|lia]. destruct (t' =? b); [|lia]. eapply Cap; eauto. }
  set (A := fun a b => if S a && negb (S b) then Phi R fl a b else 0%Z). set (B := fun a b => Z.of_N (if S a && negb (S b) then W a b else 0%N)).
  assert (AB : forall a b, (A a b <= B a b)%Z) by (intros a b; unfold A, B; destruct (S a && negb (S b)); [apply PL|lia]).
  assert (EA : out_flow R fl S = zsum n (fun a => zsum n (A a))) by reflexivity.
  assert (EB : Z.of_N (cutw n W S) = zsum n (fun a => zsum n (B a))).
  { unfold cutw. rewrite <- zsum_bsum. apply zsum_ext. intros a Ha. rewrite <- zsum_bsum. reflexivity. }
  assert (Z0 : zsum n (fun a => (zsum n (B a) - zsum n (A a))%Z) = 0%Z) by (rewrite zsum_sub; lia).
  assert (NN : forall a, (0 <= zsum n (B a) - zsum n (A a))%Z) by (intro a; pose proof (zsum_le n (A a) (B a) (fun i _ => AB a i)); lia).
  pose proof (zsum_pos n _ (fun i _ => NN i) Z0 u Hu) as X. cbn beta in X. rewrite <- zsum_sub in X.
  pose proof (zsum_pos n (fun b => (B u b - A u b)%Z) ltac:(intros b _; specialize (AB u b); lia) X v Hv) as Y. cbn beta in Y. unfold A, B in Y. rewrite Su, Sv in Y. cbn [andb negb] in Y. lia.
Qed.

Section Blocks.
Context (f : nat -> nat) (k : nat) (CL : clustering n f k) (Top : forall u v, redge u v -> f v <= f u).
Context (Same : forall u v, u < n -> v < n -> f u = f v -> clos_refl_trans nat redge u v).
Context (c : N) (Hc : x = Z.of_N c) (Min : is_mincut n W c).

Lemma closed_reach S u v : closed S -> clos_refl_trans nat redge u v -> S u = true -> S v = true.
Proof. intros C H. induction H as [a b E|a|a b d _ IH1 _ IH2]; intro Sa; auto. eapply C; eauto. Qed.
Lemma closed_whole S : closed S -> whole n f S.
Proof.
  intros C u v Hu Hv E. destruct (S u) eqn:Su, (S v) eqn:Sv; auto.
  - rewrite (closed_reach S u v C (Same u v Hu Hv E) Su) in Sv. auto.
  - rewrite (closed_reach S v u C (Same v u Hv Hu (eq_sym E)) Sv) in Su. auto.
Qed.
Lemma prefix_closed i : closed (fun u => f u <=? i).
Proof. intros u v E H. apply Nat.leb_le in H. apply Nat.leb_le. pose proof (Top u v E). lia. Qed.
Lemma prefix_proper i : i < k - 1 -> proper n (fun u => f u <=? i).
Proof.
  intro Hi. destruct CL as [_ On]. destruct (On 0 ltac:(lia)) as (a & Ha & Ea), (On (k - 1) ltac:(lia)) as (b & Hb & Eb).
  split; [exists a|exists b]; (split; [auto|]); [apply Nat.leb_le|apply Nat.leb_gt]; lia.
Qed.

(** every minimum cut between s and t follows the blocks *)
Lemma mincut_whole S : cutw n W S = c -> S s = true -> S t = false -> whole n f S.
Proof. intros E Ss St. apply closed_whole, tight_closed. rewrite Out, Ss, St. rewrite E. lia. Qed.
Lemma mincut_whole2 S : cutw n W S = c -> S s <> S t -> whole n f S.
Proof.
  intros E D. destruct (S s) eqn:Ss, (S t) eqn:St; try congruence; [apply mincut_whole; auto|].
  assert (WH : whole n f (fun u => negb (S u))).
  { apply mincut_whole; rewrite ?Ss, ?St; auto. rewrite cutw_compl; auto. apply valid_symm. exact V. }
  intros u v Hu Hv Ef. specialize (WH u v Hu Hv Ef). cbn beta in WH. destruct (S u), (S v); cbn in WH; congruence.
Qed.

Lemma chain_ok : 2 <= k -> (0 < c)%N -> (forall S, proper n S -> cutw n W S = c -> S s <> S t) ->
  st_chain n W f k c /\ f s = 0 /\ f t = k - 1.
Proof.
  intros K2 Pc Sep. assert (PF : forall i, i < k - 1 -> cutw n W (fun u => f u <=? i) = c /\ f s <= i /\ i < f t).
  { intros i Hi. pose proof (closed_cut _ (prefix_closed i)) as E. cbn beta in E. pose proof (proj2 Min _ (prefix_proper i Hi)) as LE.
    destruct (Nat.leb_spec (f s) i), (Nat.leb_spec (f t) i); try lia. }
  assert (F0 : f s = 0) by (destruct (PF 0 ltac:(lia)) as (_ & H & _); lia).
  assert (FT : f t = k - 1) by (destruct (PF (k - 2) ltac:(lia)) as (_ & _ & H); pose proof (proj1 CL t Ht); lia).
  split; [|auto]. constructor; auto.
  - intros S P _. apply (proj2 Min S P).
  - intros i Hi. apply PF. exact Hi.
  - right. intros S u w P WS E Hu Hw Fu Fw. rewrite (WS u s Hu Hs ltac:(congruence)), (WS w t Hw Ht ltac:(congruence)). apply (Sep S P E).
Qed.
End Blocks.
End Chain.
