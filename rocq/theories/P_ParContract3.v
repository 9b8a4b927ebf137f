(* P_ParContract3.v - proofs about M_ParContract: the finished graph is the contraction. *)
From Verif Require Import P_Cut.
From Verif Require Export P_ParContract2.

Lemma row_sum_g (row : list (nat * N)) n (P : nat -> bool) : (forall t w, In (t, w) row -> t < n) ->
  sumN (fun e => if P (fst e) then snd e else 0%N) row = bsum n (fun z => if P z then sumN snd (filter (fun e => fst e =? z) row) else 0%N).
Proof.
  induction row as [|[t w] row IH]; intro H; [cbn [sumN filter]; symmetry; apply bsum_zero; intros; destruct (P i); reflexivity|]. cbn [sumN filter fst snd]. rewrite IH by (intros; eapply H; right; eauto).
  rewrite (bsum_ext n (fun z => if P z then sumN snd (if t =? z then (t, w) :: filter (fun e => fst e =? z) row else filter (fun e => fst e =? z) row) else 0%N)
    (fun z => (if Nat.eqb z t then (if P z then w else 0) else 0) + (if P z then sumN snd (filter (fun e => Nat.eqb (fst e) z) row) else 0))%N).
  - rewrite bsum_add, (bsum_single n (fun z => if P z then w else 0%N)); [reflexivity|]. apply (H t w). left. auto.
  - intros z _. rewrite (Nat.eqb_sym z t). destruct (t =? z), (P z); cbn [sumN snd]; lia.
Qed.

Lemma key_sym a b : key_of a b = key_of b a.
Proof. unfold key_of. destruct (Nat.ltb_spec b a), (Nat.ltb_spec a b); try lia; auto; replace b with a by lia; auto. Qed.

Section Three.
Context (G : graph) (U : undirected G) (mapping : list nat) (num : nat) (S : small num) (HM : forall v, v < length G -> nth v mapping 0 < num).
Context (assign : list (list nat)) (HA : Permutation (concat assign) (seq 0 (length G))).
Let n := length G.
Let f v := nth v mapping 0.
Let items := concat (map (flat_map (node_items G mapping)) assign).
Definition between (v u : nat) : N := bsum n (fun x => bsum n (fun y => if (f x =? v) && (f y =? u) then wt G x y else 0%N)).

Lemma items_flat : items = flat_map (node_items G mapping) (concat assign).
Proof. unfold items. clear. induction assign as [|a l IH]; [reflexivity|]. cbn [map concat]. rewrite flat_map_app, IH. reflexivity. Qed.
Lemma items_ok p ct w : In (p, ct, w) items -> ct < p /\ p < num.
Proof.
  rewrite items_flat, in_flat_map. intros (x & Ix & I). apply (Permutation_in _ HA) in Ix. apply in_seq in Ix. unfold node_items in I. apply in_flat_map in I as ([t w'] & _ & I). cbn [fst snd] in I.
  destruct (Nat.leb_spec (nth x mapping 0) (nth t mapping 0)); [destruct I|]. destruct I as [I|[]]. injection I as <- <- <-. split; [auto|apply HM; lia].
Qed.
Lemma between_sym v u : between v u = between u v.
Proof.
  unfold between. rewrite bsum_swap. apply bsum_ext. intros x Hx. apply bsum_ext. intros y Hy. rewrite andb_comm. destruct ((f x =? u) && (f y =? v)); [|reflexivity]. apply U; auto.
Qed.
Lemma items_total v u : u < v -> v < num -> sumN (iw (key_of v u)) items = between v u.
Proof.
  intros L V. rewrite items_flat, sumN_flat_map, (sumN_perm _ _ _ HA). unfold between. change (sumN ?g (seq 0 (length G))) with (bsum n g). apply bsum_ext. intros x Hx. unfold node_items. rewrite sumN_flat_map.
  rewrite (sumN_ext _ (fun e => if (f x =? v) && (f (fst e) =? u) then snd e else 0%N)).
  - rewrite (row_sum_g (nth x G []) n (fun y => (f x =? v) && (f y =? u))); [reflexivity|]. intros t w I. apply (proj1 U x t w I).
  - intros [t w] I. cbn [fst snd]. fold (f x) (f t). destruct (Nat.leb_spec (f x) (f t)) as [Q|Q]; cbn [sumN].
    + destruct (Nat.eqb_spec (f x) v), (Nat.eqb_spec (f t) u); cbn [andb]; auto. lia.
    + unfold iw, ikey. cbn [fst snd]. assert (Hf : f x < num) by (apply HM; auto). destruct (key_pair num (f t) (f x) S Q Hf) as (P1 & _). destruct (key_pair num u v S L V) as (P2 & _).
      destruct (N.eqb_spec (key_of (f x) (f t)) (key_of v u)) as [E|E].
      * rewrite E, P2 in P1. injection P1 as <- <-. rewrite !Nat.eqb_refl. cbn [andb]. lia.
      * destruct (Nat.eqb_spec (f x) v) as [Ev|], (Nat.eqb_spec (f t) u) as [Eu|]; cbn [andb]; auto. rewrite Ev, Eu in E. congruence.
Qed.

(** the entries of a vertex *)
Lemma entry_iff tab ks v u w : (forall k, In k ks -> edge_key num k) -> In (u, w) (entries tab v ks) <-> In (key_of v u) ks /\ u < num /\ v < num /\ u <> v /\ w = tget (key_of v u) tab.
Proof.
  intro H. unfold entries. rewrite in_flat_map. split.
  - intros (k & Ik & I). destruct (H k Ik) as (a & b & A & B & E). destruct (key_pair num a b S A B) as (P & _). rewrite <- E in P. unfold inc1, inc2 in I. rewrite P in I. cbn [fst snd] in I. apply in_app_iff in I. destruct I as [I|I].
    + destruct (Nat.eqb_spec a v) as [<-|]; [|destruct I]. destruct I as [I|[]]. injection I as <- <-. rewrite key_sym, <- E. repeat split; auto; lia.
    + destruct (Nat.eqb_spec b v) as [<-|]; [|destruct I]. destruct I as [I|[]]. injection I as <- <-. rewrite <- E. repeat split; auto; lia.
  - intros (Ik & Hu & Hv & N & ->). exists (key_of v u). split; [auto|]. apply in_app_iff. unfold inc1, inc2. destruct (Nat.lt_trichotomy u v) as [L|[L|L]]; [|lia|].
    + destruct (key_pair num u v S L Hv) as (P & _). right. rewrite P. cbn [fst snd]. rewrite Nat.eqb_refl. left. auto.
    + destruct (key_pair num v u S L Hu) as (_ & P & _). left. rewrite P. cbn [fst snd]. rewrite Nat.eqb_refl. left. auto.
Qed.
Lemma entries_nodup tab v : forall ks, NoDup ks -> (forall k, In k ks -> edge_key num k) -> NoDup (map fst (entries tab v ks)).
Proof.
  induction ks as [|k ks IH]; intros ND H; [constructor|]. inversion ND as [|? ? Nk ND']; subst. unfold entries. cbn [flat_map]. fold (entries tab v ks).
  assert (H' : forall k, In k ks -> edge_key num k) by (intros; apply H; right; auto). specialize (IH ND' H').
  destruct (H k (or_introl eq_refl)) as (a & b & A & B & E). destruct (key_pair num a b S A B) as (P & _). rewrite <- E in P. unfold inc1, inc2. rewrite P. cbn [fst snd].
  assert (Fr : forall u, key_of v u = k -> ~ In u (map fst (entries tab v ks))). { intros u Q I. apply in_map_iff in I as ([u' w] & Z & I). cbn in Z. subst u'. apply entry_iff in I; [|auto]. rewrite Q in I. tauto. }
  destruct (Nat.eqb_spec a v) as [<-|]; [destruct (Nat.eqb_spec b a); [lia|]|destruct (Nat.eqb_spec b v) as [<-|]]; cbn [app map fst]; auto.
  - constructor; [|auto]. apply Fr. rewrite key_sym. auto.
  - constructor; [|auto]. apply Fr. auto.
Qed.
Lemma pick_sum (l : list (nat * N)) u : NoDup (map fst l) -> forall w, In (u, w) l -> sumN snd (filter (fun e => fst e =? u) l) = w.
Proof.
  induction l as [|[t x] l IH]; intros ND w I; [destruct I|]. cbn [map fst] in ND. inversion ND as [|? ? A B]; subst. cbn [filter fst]. destruct (Nat.eqb_spec t u) as [->|N].
  - destruct I as [I|I]; [|exfalso; apply A; apply in_map_iff; exists (u, w); auto]. injection I as <-. cbn [sumN snd].
    assert (Z : filter (fun e : nat * N => fst e =? u) l = []). { clear -A. induction l as [|[t y] l IH]; [reflexivity|]. cbn [filter fst]. destruct (Nat.eqb_spec t u) as [->|]; [exfalso; apply A; left; auto|]. apply IH. intro I. apply A. right. auto. }
    rewrite Z. cbn [sumN]. lia.
  - destruct I as [I|I]; [injection I as -> ->; congruence|]. apply IH; auto.
Qed.

Lemma rows_weights tab deg keys H : ready num items tab deg keys -> length H = num -> (forall v, v < num -> Permutation (nth v H []) (entries tab v (map fst tab))) ->
  undirected H /\ contraction_of n (wt G) f num (wt H) /\ forall v, NoDup (map fst (nth v H [])).
Proof.
  intros [R1 R2 R3 R4 R5 R6] LH P.
  assert (ND : forall v, NoDup (map fst (nth v H []))). { intro v. destruct (Nat.lt_ge_cases v num) as [Q|Q]; [|rewrite nth_overflow by lia; constructor]. apply (Permutation_NoDup (l := map fst (entries tab v (map fst tab)))); [apply Permutation_map; symmetry; apply P; auto|apply entries_nodup; auto]. }
  assert (W : forall p q, p < num -> q < num -> p <> q -> wt H p q = between p q).
  { intros p q Hp Hq N. assert (T : tget (key_of p q) tab = between p q). { rewrite R3. destruct (Nat.lt_ge_cases q p) as [L|L]; [apply items_total; auto|rewrite key_sym, between_sym; apply items_total; auto; lia]. }
    rewrite <- T. unfold wt. destruct (in_dec N.eq_dec (key_of p q) (map fst tab)) as [I|I].
    - apply pick_sum; [apply ND|]. apply (Permutation_in _ (Permutation_sym (P p Hp))). apply entry_iff; [auto|]. repeat split; auto.
    - rewrite tget_out by auto. apply sumN_zero. intros [t w] J. apply filter_In in J as [J Q]. apply Nat.eqb_eq in Q. cbn in Q. subst t. apply (Permutation_in _ (P p Hp)), entry_iff in J; [tauto|auto]. }
  split; [|split; [exact W|exact ND]]. split.
  - intros u v w I. destruct (Nat.lt_ge_cases u num) as [Q|Q]; [|rewrite nth_overflow in I by lia; destruct I]. apply (Permutation_in _ (P u Q)), entry_iff in I; [|auto]. rewrite LH. split; [tauto|]. tauto.
  - intros u v Hu Hv. rewrite LH in *. destruct (Nat.eq_dec u v) as [->|N]; [auto|]. rewrite !W by auto. apply between_sym.
Qed.

(** ** the whole run *)
Lemma init1_ok ce : inv1 num ce items (init1 G mapping num assign).
Proof.
  constructor; cbn [init1 h_q h_tab h_deg h_keys h_cw map]; rewrite ?map_length; auto.
  - apply incl_refl.
  - constructor.
  - assert (Z : forall l : list (list nat), concat (map (fun _ => @nil N) l) = []) by (induction l as [|x l IH]; [reflexivity|exact IH]). rewrite Z. constructor.
  - assert (Z : forall l : list (list nat), fold_right N.add 0%N (map (fun _ => 0%N) l) = 0%N) by (induction l as [|x l IH]; [reflexivity|cbn; rewrite IH; reflexivity]). rewrite Z. reflexivity.
  - apply repeat_length.
  - intro v. cbn. destruct (Nat.lt_ge_cases v num); [apply nth_repeat_lt; auto|apply nth_overflow; rewrite repeat_length; auto].
  - intros k [].
Qed.

Theorem par_contract_ok b0 b1 ce j sched1 sched2 : b0 < num -> b1 < num -> (ce = 0%N \/ ce = key_of b1 b0) -> j < length assign ->
  exists s1, run1 ce (init1 G mapping num assign) sched1 = Some s1 /\
    (done1 s1 -> exists s1' s2, settle ce b0 b1 j s1 = Some s1' /\ run2 (h_tab s1') (init2 s1') sched2 = Some s2 /\
       (done2 s2 -> let H := rows_of (h_deg s1') s2 in
          length H = num /\ undirected H /\ contraction_of n (wt G) f num (wt H) /\ forall v, NoDup (map fst (nth v H [])))).
Proof.
  intros B0 B1 C J. destruct (run1_ok num S ce items items_ok sched1 _ (init1_ok ce)) as (s1 & E1 & I1 & L1). exists s1. split; [exact E1|]. intro D1. cbn [init1 h_q] in L1. rewrite map_length in L1.
  destruct (settle_ok num S ce items items_ok b0 b1 j s1 B0 B1 C I1 D1) as (s1' & E2 & R & LK); [lia|].
  pose proof (start_ok num (h_tab s1') (h_deg s1') (map fst (h_tab s1')) (r_ld _ _ _ _ _ R) (r_d _ _ _ _ _ R) (h_keys s1') (r_ks _ _ _ _ _ R)) as I2.
  destruct (run2_ok num S (h_tab s1') (h_deg s1') (map fst (h_tab s1')) (r_ld _ _ _ _ _ R) (r_d _ _ _ _ _ R) (r_e _ _ _ _ _ R) (fun k I => proj2 (has_In k _) I) sched2 _ _ I2) as (s2 & L2 & E3 & I3 & _).
  exists s1', s2. split; [exact E2|]. split; [exact E3|]. intro D2. cbv zeta.
  destruct (finished num S (h_tab s1') (h_deg s1') (map fst (h_tab s1')) (r_ld _ _ _ _ _ R) (r_d _ _ _ _ _ R) (r_e _ _ _ _ _ R) (fun k I => proj2 (has_In k _) I) s2 L2 I3 D2) as [LH P]. split; [exact LH|].
  apply (rows_weights (h_tab s1') (h_deg s1') (h_keys s1')); auto.
Qed.
End Three.
