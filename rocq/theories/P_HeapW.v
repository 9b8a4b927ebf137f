(* P_HeapW.v - the heap without any assumption on the keys: whatever keys are written (also ones that
   break the heap order), the structure stays consistent and exactly the queued nodes are answered. *)
From Verif Require Import SpecPQ P_SpecPQ M_Heap P_Heap.

Lemma sift_up_w n : forall fuel s pos, hinv n s -> pos < hlen s -> pos < fuel ->
  exists s', sift_up fuel s pos = Some s' /\ hinv n s' /\ hlen s' = hlen s /\ (forall v, habs s' v = habs s v).
Proof.
  induction fuel as [|fuel IH]; intros s pos H Hpos Hf; [lia|]. cbn [sift_up]. cbv zeta.
  destruct (Nat.ltb_spec 0 pos) as [Hp|Hp]; [|exists s; auto].
  fold (par pos). pose proof (par_lt pos Hp) as Hpl.
  destruct (fst (hp s (par pos)) <? fst (hp s pos))%N; [|exists s; auto].
  destruct (hswap_ok n s (par pos) pos H) as (H' & Hl' & Hab' & Hk'); [lia|lia|lia|].
  destruct (IH (hswap s (par pos) pos) (par pos) H') as (s' & Hs & Hi' & Hls & Has); try lia.
  exists s'. split; [auto|]. split; [auto|]. split; [lia|]. intros v. now rewrite Has, Hab'.
Qed.

Lemma sift_down_w n : forall fuel s pos, hinv n s -> pos < hlen s -> hlen s - pos <= fuel ->
  exists s', sift_down fuel s pos = Some s' /\ hinv n s' /\ hlen s' = hlen s /\ (forall v, habs s' v = habs s v).
Proof.
  induction fuel as [|fuel IH]; intros s pos H Hpos Hf; [lia|].
  cbn [sift_down]. fold (hlen s).
  assert (Hgo : forall c, pos < c -> c < hlen s ->
     exists s', sift_down fuel (hswap s pos c) c = Some s' /\ hinv n s' /\ hlen s' = hlen s /\ (forall v, habs s' v = habs s v)).
  { intros c Hc0 Hcl.
    destruct (hswap_ok n s pos c H) as (H' & Hl' & Hab' & Hk'); [lia|lia|lia|].
    destruct (IH (hswap s pos c) c H') as (s' & Hs & Hi' & Hls & Has); try lia.
    exists s'. split; [auto|]. split; [auto|]. split; [lia|]. intros v. now rewrite Has, Hab'. }
  destruct (Nat.ltb_spec (2 * pos + 2) (hlen s)) as [Hrc|Hrc].
  - destruct (_ && _); [exists s; auto|]. destruct (_ <? _)%N; apply Hgo; lia.
  - destruct (Nat.ltb_spec (2 * pos + 1) (hlen s)) as [Hlc|Hlc]; [|exists s; auto].
    destruct (_ <? _)%N; [apply Hgo; lia|exists s; auto].
Qed.

Lemma increase_w n s v k : hinv n s -> habs s v <> None ->
  exists s', heap_increase_key s v k = Some s' /\ hinv n s' /\ (forall u, habs s' u = qset (habs s) v (Some (key32 k)) u).
Proof.
  intros H Hv. destruct (heap_pos_spec n s v H Hv) as (j & Hj & Hpos & Hkey).
  unfold heap_increase_key. rewrite Hpos.
  destruct (set_key_ok n s v j (key32 k) H Hj) as (Hp & H' & Hl & Hk' & Ha).
  set (p := snd (el s j)) in *.
  destruct (sift_up_w n (S p) (set_key s p (key32 k)) p H') as (s' & Hs & Hi & _ & Ha'); try lia.
  exists s'. split; [auto|]. split; [auto|]. intros u. now rewrite Ha', Ha.
Qed.

Lemma insert_w n s v k : hinv n s -> v < n ->
  exists s', heap_insert s v k = Some s' /\ hinv n s' /\
    (forall u, habs s' u = match habs s v with None => qset (habs s) v (Some (key32 k)) u | Some _ => habs s u end).
Proof.
  intros H Hv. unfold heap_insert.
  rewrite (nth_error_nth_lt _ _ None) by (rewrite (hi_n _ _ H); auto).
  destruct (nth v (h_ix s) None) as [j|] eqn:E.
  - exists s. split; [auto|]. split; [auto|]. intros u. unfold habs at 2. now rewrite E.
  - set (L := hlen s). rewrite (hi_len _ _ H). fold L. change (length (h_hp s)) with L.
    set (s1 := mk_heap (h_el s ++ [(v, L)]) (upd (h_ix s) v (Some L)) (h_hp s ++ [(key32 k, L)])).
    assert (Hl1 : hlen s1 = S L) by (unfold s1, hlen; simpl; rewrite app_length; simpl; unfold L, hlen; lia).
    assert (Hhp : forall i, i < L -> hp s1 i = hp s i).
    { intros i Hi. unfold hp, s1. simpl. now rewrite app_nth1. }
    assert (HhpL : hp s1 L = (key32 k, L)).
    { unfold hp, s1. simpl. rewrite app_nth2 by (unfold L, hlen; lia). unfold L, hlen. now rewrite Nat.sub_diag. }
    assert (Hel : forall i, i < L -> el s1 i = el s i).
    { intros i Hi. unfold el, s1. simpl. rewrite app_nth1; [auto|]. rewrite (hi_len _ _ H). auto. }
    assert (HelL : el s1 L = (v, L)).
    { unfold el, s1. simpl. rewrite app_nth2 by (rewrite (hi_len _ _ H); unfold L; lia).
      rewrite (hi_len _ _ H). fold L. now rewrite Nat.sub_diag. }
    assert (Hix : forall u, nth u (h_ix s1) None = if u =? v then Some L else nth u (h_ix s) None).
    { intros u. unfold s1. simpl. rewrite nth_upd, (hi_n _ _ H). apply Nat.ltb_lt in Hv. rewrite Hv.
      destruct (u =? v); reflexivity. }
    assert (Hi1 : hinv n s1).
    { constructor; try rewrite Hl1.
      - unfold s1. simpl. rewrite app_length, (hi_len _ _ H). simpl. fold L. lia.
      - unfold s1. simpl. rewrite upd_length. apply H.
      - intros i Hi. destruct (Nat.eq_dec i L) as [->|].
        + rewrite HhpL. simpl. rewrite HelL. simpl. lia.
        + assert (Hi' : i < L) by lia. destruct (hi_hp _ _ H i Hi') as [H1 H2].
          rewrite Hhp by auto. rewrite Hel by auto. fold L in H1. lia.
      - intros j Hj. destruct (Nat.eq_dec j L) as [->|].
        + rewrite HelL. simpl. rewrite HhpL, Hix, Nat.eqb_refl. simpl. repeat split; auto; lia.
        + assert (Hj' : j < L) by lia. destruct (hi_el _ _ H j Hj') as (H1 & H2 & H3 & H4).
          rewrite Hel by auto. rewrite Hhp, Hix by auto. fold L in H1.
          destruct (Nat.eqb_spec (fst (el s j)) v); [congruence|]. repeat split; auto; lia.
      - intros u j. rewrite Hix. destruct (Nat.eqb_spec u v) as [->|].
        + injection 1 as <-. rewrite HelL. simpl. lia.
        + intros Hu. destruct (hi_ix _ _ H _ _ Hu) as [H1 H2]. rewrite Hel by auto. fold L in H1. lia. }
    assert (Hkey : forall i, i < L -> key s1 i = key s i) by (intros; unfold key; now rewrite Hhp).
    destruct (sift_up_w n (S L) s1 L Hi1) as (s' & Hs & Hi' & _ & Ha'); try lia.
    exists s'. split; [auto|]. split; [auto|]. intros u. rewrite Ha'.
      unfold habs at 2. rewrite E. unfold habs, qset. rewrite Hix.
      destruct (Nat.eqb_spec u v) as [->|].
      + rewrite HelL. simpl. unfold key. rewrite HhpL. reflexivity.
      + destruct (nth u (h_ix s) None) as [j|] eqn:Eu; [|auto].
        destruct (hi_ix _ _ H _ _ Eu) as [Hj _]. rewrite Hel by auto.
        destruct (hi_el _ _ H j Hj) as [Hj2 _]. rewrite Hkey by auto. reflexivity.
Qed.

Lemma delete_max_w n s : hinv n s -> 0 < hlen s ->
  exists s' v, heap_delete_max s = Some (s', Some v) /\ hinv n s' /\ habs s v <> None /\
    (forall u, habs s' u = qset (habs s) v None u).
Proof.
  intros H Hl.
  assert (Htop : habs s (fst (el s (snd (hp s 0)))) <> None).
  { destruct (hi_hp _ _ H 0 Hl) as [H1 H2]. destruct (hi_el _ _ H _ H1) as (_ & _ & _ & H3). unfold habs. rewrite H3. discriminate. }
  unfold heap_delete_max. destruct (h_hp s) as [|x0 xs] eqn:Ehp; [unfold hlen in Hl; rewrite Ehp in Hl; simpl in Hl; lia|].
  rewrite <- Ehp. clear x0 xs Ehp. cbv zeta.
  set (ei := snd (hp s 0)) in *. destruct (hi_hp _ _ H 0 Hl) as [Hei Hei2]. fold ei in Hei, Hei2.
  set (v := fst (el s ei)) in *.
  match goal with |- context [if negb ?b then ?x else ?y] => destruct (if negb b then x else y) as [[el2 hp2] ix2] eqn:E end.
  set (s3 := mk_heap (pop_back el2) ix2 (pop_back hp2)).
  assert (Hd : deleted n s ei s3).
  { unfold s3. eapply (delete_core n s ei (upd (h_hp s) 0 (hp s (length (h_hp s) - 1))));
      [exact H|exact Hei| | | | |rewrite Hei2, <- E; reflexivity].
    - now rewrite upd_length.
    - rewrite Hei2. rewrite nth_upd_eq; auto.
    - intros i Hi. rewrite Hei2, nth_upd. fold (hlen s). destruct (Nat.eqb_spec i 0) as [->|]; [|reflexivity].
      apply Nat.ltb_lt in Hl. rewrite Hl. reflexivity.
    - intros Hnl. rewrite Hei2. split; [rewrite !upd_length, set_index_length; apply H|].
      intros j Hj. assert (Hlx : length (set_index (h_el s) (snd (nth 0 (upd (h_hp s) 0 (hp s (length (h_hp s) - 1))) (0%N, 0))) 0) = hlen s)
        by (rewrite set_index_length; apply H).
      rewrite nth_upd, Hlx. destruct (Nat.eqb_spec j ei) as [->|]; [|reflexivity].
      apply Nat.ltb_lt in Hei. rewrite Hei. reflexivity. }
  pose proof (deleted_hinv _ _ _ _ H Hei Hd) as H3.
  destruct (deleted_abs _ _ _ _ H Hei Hd) as [Habs Hkey]. fold v in Habs. rewrite Hei2 in Hkey.
  pose proof (dl_len _ _ _ _ Hd) as Hl3.
  change (length (h_hp s3)) with (hlen s3).
  destruct (Nat.ltb_spec 1 (hlen s3)) as [H1|H1].
  - destruct (sift_down_w n (hlen s3) s3 0 H3 ltac:(lia) ltac:(lia)) as (s4 & -> & H4 & Hl4 & Ha4).
    exists s4, v. split; [auto|]. split; [auto|]. split; [auto|]. intros u. now rewrite Ha4, Habs.
  - exists s3, v. auto.
Qed.
