(* P_Heap.v - proofs about M_Heap. *)
From Verif Require Export P_SpecPQ M_Heap.

Definition key (s : heap) (i : nat) : N := fst (hp s i).
Definition hlen (s : heap) : nat := length (h_hp s).

Record hinv (n : nat) (s : heap) : Prop := mk_hinv {
  hi_len : length (h_el s) = hlen s;
  hi_n : length (h_ix s) = n;
  hi_hp : forall i, i < hlen s -> snd (hp s i) < hlen s /\ snd (el s (snd (hp s i))) = i;
  hi_el : forall j, j < hlen s -> snd (el s j) < hlen s /\ snd (hp s (snd (el s j))) = j /\
     fst (el s j) < n /\ nth (fst (el s j)) (h_ix s) None = Some j;
  hi_ix : forall v j, nth v (h_ix s) None = Some j -> j < hlen s /\ fst (el s j) = v }.

Definition habs (s : heap) : qmap := fun v =>
  match nth v (h_ix s) None with Some j => Some (key s (snd (el s j))) | None => None end.

(* heap order *)
Definition par (i : nat) : nat := (i - 1) / 2.
Definition hord (s : heap) : Prop := forall i, 0 < i -> i < hlen s -> (key s i <= key s (par i))%N.

Lemma par_lt i : 0 < i -> par i < i.
Proof. intros H. unfold par. apply Nat.div_lt_upper_bound; lia. Qed.

Lemma par_lc p : par (2 * p + 1) = p.
Proof. unfold par. replace (2 * p + 1 - 1) with (p * 2) by lia. apply Nat.div_mul. lia. Qed.

Lemma par_rc p : par (2 * p + 2) = p.
Proof. unfold par. replace (2 * p + 2 - 1) with (1 + p * 2) by lia. rewrite Nat.div_add by lia. reflexivity. Qed.

Lemma par_inv i p : 0 < i -> par i = p -> i = 2 * p + 1 \/ i = 2 * p + 2.
Proof.
  unfold par. intros Hi <-. pose proof (Nat.div_mod (i - 1) 2 ltac:(lia)).
  pose proof (Nat.mod_upper_bound (i - 1) 2 ltac:(lia)). lia.
Qed.

Lemma hp_inj n s i i' : hinv n s -> i < hlen s -> i' < hlen s -> snd (hp s i) = snd (hp s i') -> i = i'.
Proof.
  intros H Hi Hi' E. destruct (hi_hp _ _ H i Hi) as [_ H1]. destruct (hi_hp _ _ H i' Hi') as [_ H2].
  rewrite <- H1, <- H2, E. reflexivity.
Qed.

Lemma el_set_index e j p k d1 d2 : j < length e -> nth k (set_index e j p) (d1, d2) =
  if k =? j then (fst (nth j e (0, 0)), p) else nth k e (d1, d2).
Proof.
  intros Hj. unfold set_index. rewrite nth_upd. apply Nat.ltb_lt in Hj.
  destruct (Nat.eqb_spec k j) as [->|]; simpl; [now rewrite Hj|reflexivity].
Qed.

Lemma set_index_length e j p : length (set_index e j p) = length e.
Proof. unfold set_index. apply upd_length. Qed.

(* pointwise description of hswap *)
Lemma hswap_desc n s p q : hinv n s -> p < hlen s -> q < hlen s -> p <> q ->
  hlen (hswap s p q) = hlen s /\ h_ix (hswap s p q) = h_ix s /\ length (h_el (hswap s p q)) = hlen s /\
  (forall i, hp (hswap s p q) i = if i =? p then hp s q else if i =? q then hp s p else hp s i) /\
  (forall j, el (hswap s p q) j = (fst (el s j),
     if j =? snd (hp s q) then p else if j =? snd (hp s p) then q else snd (el s j))).
Proof.
  intros H Hp Hq Hne.
  assert (Hlen : length (h_hp s) = hlen s) by reflexivity.
  assert (Hhp : forall i, nth i (upd (upd (h_hp s) p (hp s q)) q (hp s p)) (0%N, 0) =
     if i =? p then hp s q else if i =? q then hp s p else hp s i).
  { intros i. rewrite !nth_upd, upd_length, Hlen.
    assert (Hp' := Hp). assert (Hq' := Hq). apply Nat.ltb_lt in Hp', Hq'.
    destruct (Nat.eqb_spec i q) as [->|].
    - rewrite Hq'. simpl. destruct (Nat.eqb_spec q p); [congruence|reflexivity].
    - simpl. destruct (Nat.eqb_spec i p) as [->|]; simpl; [now rewrite Hp'|reflexivity]. }
  pose proof (proj1 (hi_hp _ _ H p Hp)) as Hsp. pose proof (proj1 (hi_hp _ _ H q Hq)) as Hsq.
  unfold hswap. split; [unfold hlen; simpl; now rewrite !upd_length|]. split; [reflexivity|].
  split; [simpl; rewrite !set_index_length; apply H|]. split; [exact Hhp|].
  intros j. unfold el at 1. simpl h_el. rewrite !Hhp, !Nat.eqb_refl.
  destruct (Nat.eqb_spec q p); [congruence|].
  rewrite el_set_index by (rewrite set_index_length, (hi_len _ _ H); auto).
  rewrite !el_set_index by (rewrite (hi_len _ _ H); auto).
  fold (el s (snd (hp s q))) (el s (snd (hp s p))) (el s j).
  destruct (Nat.eqb_spec j (snd (hp s p))) as [->|Hj1].
  - destruct (Nat.eqb_spec (snd (hp s p)) (snd (hp s q))) as [E|E].
    + exfalso; apply (hp_inj _ _ _ _ H) in E; [congruence|auto|auto].
    + simpl. reflexivity.
  - destruct (Nat.eqb_spec j (snd (hp s q))) as [->|Hj2]; simpl; [reflexivity|].
    now destruct (el s j).
Qed.

Lemma hswap_ok n s p q : hinv n s -> p < hlen s -> q < hlen s -> p <> q ->
  hinv n (hswap s p q) /\ hlen (hswap s p q) = hlen s /\ (forall v, habs (hswap s p q) v = habs s v) /\
  (forall i, key (hswap s p q) i = if i =? p then key s q else if i =? q then key s p else key s i).
Proof.
  intros H Hp Hq Hne. destruct (hswap_desc n s p q H Hp Hq Hne) as (Hl & Hix & Hle & Hhp & Hel).
  assert (Hkey : forall i, key (hswap s p q) i = if i =? p then key s q else if i =? q then key s p else key s i).
  { intros i. unfold key. rewrite Hhp. destruct (i =? p); [auto|]. destruct (i =? q); auto. }
  assert (Hq2 := hi_hp _ _ H q Hq). assert (Hp2 := hi_hp _ _ H p Hp).
  (* position of element j in the new heap *)
  assert (Hpos : forall j, j < hlen s -> 
     (if j =? snd (hp s q) then p else if j =? snd (hp s p) then q else snd (el s j)) < hlen s /\
     hp (hswap s p q) (if j =? snd (hp s q) then p else if j =? snd (hp s p) then q else snd (el s j)) = hp s (snd (el s j))).
  { intros j Hj. rewrite Hhp. destruct (hi_el _ _ H j Hj) as (He1 & He2 & _).
    destruct (Nat.eqb_spec j (snd (hp s q))) as [->|N1].
    - split; [auto|]. rewrite Nat.eqb_refl. destruct Hq2 as [_ ->]. reflexivity.
    - destruct (Nat.eqb_spec j (snd (hp s p))) as [->|N2].
      + split; [auto|]. rewrite Nat.eqb_refl. destruct (Nat.eqb_spec q p); [congruence|].
        destruct Hp2 as [_ ->]. reflexivity.
      + split; [auto|]. destruct (Nat.eqb_spec (snd (el s j)) p) as [E|_]; [congruence|].
        destruct (Nat.eqb_spec (snd (el s j)) q) as [E|_]; [congruence|]. reflexivity. }
  split; [|split; [auto|split; [|auto]]].
  - constructor.
    + rewrite Hl. exact Hle.
    + rewrite Hix. apply H.
    + rewrite Hl. intros i Hi. rewrite Hhp, Hel. simpl.
      destruct (Nat.eqb_spec i p) as [->|N1].
      * split; [apply Hq2|]. now rewrite Nat.eqb_refl.
      * destruct (Nat.eqb_spec i q) as [->|N2].
        -- split; [apply Hp2|]. destruct (Nat.eqb_spec (snd (hp s p)) (snd (hp s q))) as [E|_].
           ++ exfalso; apply (hp_inj _ _ _ _ H) in E; [congruence|auto|auto].
           ++ now rewrite Nat.eqb_refl.
        -- destruct (hi_hp _ _ H i Hi) as [Hi1 Hi2]. split; [auto|].
           destruct (Nat.eqb_spec (snd (hp s i)) (snd (hp s q))) as [E|_];
             [exfalso; apply (hp_inj _ _ _ _ H) in E; [congruence|auto|auto]|].
           destruct (Nat.eqb_spec (snd (hp s i)) (snd (hp s p))) as [E|_];
             [exfalso; apply (hp_inj _ _ _ _ H) in E; [congruence|auto|auto]|]. auto.
    + rewrite Hl. intros j Hj. rewrite Hel, Hix. simpl. destruct (Hpos j Hj) as [H1 H2].
      rewrite H2. split; [auto|]. apply (hi_el _ _ H j Hj).
    + rewrite Hl, Hix. intros v j Hv. rewrite Hel. simpl. now apply (hi_ix _ _ H).
  - intros v. unfold habs. rewrite Hix. destruct (nth v (h_ix s) None) as [j|] eqn:E; [|auto].
    destruct (hi_ix _ _ H _ _ E) as [Hj _]. rewrite Hel. simpl.
    unfold key. now rewrite (proj2 (Hpos j Hj)).
Qed.

(* ---------------- sifting ---------------- *)

Lemma sift_up_ok n : forall fuel s pos, hinv n s -> pos < hlen s -> pos < fuel ->
  (forall i, 0 < i -> i < hlen s -> i <> pos -> (key s i <= key s (par i))%N) ->
  (forall i, 0 < i -> i < hlen s -> par i = pos -> 0 < pos -> (key s i <= key s (par pos))%N) ->
  exists s', sift_up fuel s pos = Some s' /\ hinv n s' /\ hlen s' = hlen s /\ hord s' /\
    (forall v, habs s' v = habs s v).
Proof.
  induction fuel as [|fuel IH]; intros s pos H Hpos Hf Ho Hg; [lia|]. cbn [sift_up]. cbv zeta.
  destruct (Nat.ltb_spec 0 pos) as [Hp|Hp].
  - fold (par pos). fold (key s (par pos)) (key s pos).
    pose proof (par_lt pos Hp) as Hpl.
    destruct (N.ltb_spec (key s (par pos)) (key s pos)) as [Hlt|Hge].
    + destruct (hswap_ok n s (par pos) pos H) as (H' & Hl' & Hab' & Hk'); [lia|lia|lia|].
      destruct (IH (hswap s (par pos) pos) (par pos) H') as (s' & Hs & Hi' & Hls & Hos & Has); try lia.
      * rewrite Hl'. intros i Hi0 Hil Hne. rewrite !Hk'.
        destruct (Nat.eqb_spec i (par pos)); [contradiction|].
        destruct (Nat.eqb_spec i pos) as [->|Hip].
        -- rewrite Nat.eqb_refl. lia.
        -- destruct (Nat.eqb_spec (par i) (par pos)) as [E|_].
           ++ specialize (Ho i Hi0 Hil Hip). rewrite E in Ho. lia.
           ++ destruct (Nat.eqb_spec (par i) pos) as [E|_]; [apply Hg; auto|apply Ho; auto].
      * rewrite Hl'. intros i Hi0 Hil Hpi Hpp. rewrite !Hk'.
        pose proof (par_lt (par pos) Hpp) as Hpp'.
        assert (Hgp : (key s (par pos) <= key s (par (par pos)))%N) by (apply Ho; lia).
        destruct (Nat.eqb_spec (par (par pos)) (par pos)); [lia|].
        destruct (Nat.eqb_spec (par (par pos)) pos); [lia|].
        destruct (Nat.eqb_spec i (par pos)) as [->|]; [pose proof (par_lt (par pos)); lia|].
        destruct (Nat.eqb_spec i pos) as [->|Hip]; [exact Hgp|].
        specialize (Ho i Hi0 Hil Hip). rewrite Hpi in Ho. lia.
      * exists s'. split; [auto|]. split; [auto|]. split; [lia|]. split; [auto|].
        intros v. now rewrite Has, Hab'.
    + exists s. split; [auto|split;[auto|split;[auto|split;[|auto]]]].
      intros i Hi0 Hil. destruct (Nat.eq_dec i pos) as [->|]; auto.
  - exists s. split; [auto|split;[auto|split;[auto|split;[|auto]]]].
    intros i Hi0 Hil. apply Ho; auto. lia.
Qed.

Lemma sift_down_ok n : forall fuel s pos, hinv n s -> pos < hlen s -> hlen s - pos <= fuel ->
  (forall i, 0 < i -> i < hlen s -> par i <> pos -> (key s i <= key s (par i))%N) ->
  (forall i, 0 < i -> i < hlen s -> par i = pos -> 0 < pos -> (key s i <= key s (par pos))%N) ->
  exists s', sift_down fuel s pos = Some s' /\ hinv n s' /\ hlen s' = hlen s /\ hord s' /\
    (forall v, habs s' v = habs s v).
Proof.
  induction fuel as [|fuel IH]; intros s pos H Hpos Hf Ho Hg; [lia|].
  cbn [sift_down]. fold (hlen s).
  assert (Hdone : (forall i, 0 < i -> i < hlen s -> par i = pos -> (key s i <= key s pos)%N) ->
    exists s', Some s = Some s' /\ hinv n s' /\ hlen s' = hlen s /\ hord s' /\ (forall v, habs s' v = habs s v)).
  { intros Hc. exists s. split; [auto|split;[auto|split;[auto|split;[|auto]]]].
    intros i Hi0 Hil. destruct (Nat.eq_dec (par i) pos) as [E|]; [rewrite E; auto|auto]. }
  assert (Hgo : forall c, 0 < c -> c < hlen s -> par c = pos -> (key s pos <= key s c)%N ->
     (forall i, 0 < i -> i < hlen s -> par i = pos -> (key s i <= key s c)%N) ->
     exists s', sift_down fuel (hswap s pos c) c = Some s' /\ hinv n s' /\ hlen s' = hlen s /\ hord s' /\
       (forall v, habs s' v = habs s v)).
  { intros c Hc0 Hcl Hpc Hge Hmax. pose proof (par_lt c Hc0) as Hlt. rewrite Hpc in Hlt.
    destruct (hswap_ok n s pos c H) as (H' & Hl' & Hab' & Hk'); [lia|lia|lia|].
    destruct (IH (hswap s pos c) c H') as (s' & Hs & Hi' & Hls & Hos & Has); try lia.
    - rewrite Hl'. intros i Hi0 Hil Hne. rewrite !Hk'.
      pose proof (par_lt i Hi0) as Hpi.
      destruct (Nat.eqb_spec (par i) pos) as [E|Hnp].
      + destruct (Nat.eqb_spec i pos); [lia|]. destruct (Nat.eqb_spec i c) as [->|]; [auto|]. apply Hmax; auto.
      + destruct (Nat.eqb_spec i pos) as [->|].
        * destruct (Nat.eqb_spec (par pos) c); [lia|]. apply Hg; auto.
        * destruct (Nat.eqb_spec i c) as [->|]; [congruence|].
          destruct (Nat.eqb_spec (par i) c); [contradiction|]. apply Ho; auto.
    - rewrite Hl'. intros i Hi0 Hil Hpi Hc1. rewrite !Hk'. rewrite Hpc, Nat.eqb_refl.
      pose proof (par_lt i Hi0).
      destruct (Nat.eqb_spec i pos); [lia|]. destruct (Nat.eqb_spec i c); [lia|].
      rewrite <- Hpi. apply Ho; auto. lia.
    - exists s'. split; [auto|]. split; [auto|]. split; [lia|]. split; [auto|].
      intros v. now rewrite Has, Hab'. }
  destruct (Nat.ltb_spec (2 * pos + 2) (hlen s)) as [Hrc|Hrc].
  - fold (key s pos) (key s (2 * pos + 1)) (key s (2 * pos + 2)).
    destruct (N.ltb_spec (key s (2 * pos + 1)) (key s pos)) as [Hl|Hl];
    destruct (N.ltb_spec (key s (2 * pos + 2)) (key s pos)) as [Hr|Hr]; simpl andb; cbv iota.
    1: { apply Hdone. intros i Hi0 Hil Hpi. apply par_inv in Hpi as [->| ->]; auto; lia. }
    all: destruct (N.ltb_spec (key s (2 * pos + 2)) (key s (2 * pos + 1))) as [Hx|Hx];
      apply Hgo; try lia; try apply par_lc; try apply par_rc;
      intros i Hi0 Hil Hpi; apply par_inv in Hpi as [->| ->]; auto; lia.
  - destruct (Nat.ltb_spec (2 * pos + 1) (hlen s)) as [Hlc|Hlc].
    + fold (key s pos) (key s (2 * pos + 1)).
      destruct (N.ltb_spec (key s pos) (key s (2 * pos + 1))) as [Hx|Hx].
      * apply Hgo; try lia; try apply par_lc.
        intros i Hi0 Hil Hpi; apply par_inv in Hpi as [->| ->]; auto; lia.
      * apply Hdone. intros i Hi0 Hil Hpi. apply par_inv in Hpi as [->| ->]; auto; lia.
    + apply Hdone. intros i Hi0 Hil Hpi. apply par_inv in Hpi as [->| ->]; auto; lia.
Qed.

Lemma sift_down_stay fuel s pos : 
  (forall i, 0 < i -> i < hlen s -> par i = pos -> (key s i < key s pos)%N) ->
  sift_down (S fuel) s pos = Some s.
Proof.
  intros H. cbn [sift_down]. fold (hlen s).
  destruct (Nat.ltb_spec (2 * pos + 2) (hlen s)) as [Hrc|Hrc].
  - fold (key s pos) (key s (2 * pos + 1)) (key s (2 * pos + 2)).
    assert (H1 : (key s (2 * pos + 1) < key s pos)%N) by (apply H; try lia; apply par_lc).
    assert (H2 : (key s (2 * pos + 2) < key s pos)%N) by (apply H; try lia; apply par_rc).
    apply N.ltb_lt in H1, H2. now rewrite H1, H2.
  - destruct (Nat.ltb_spec (2 * pos + 1) (hlen s)) as [Hlc|Hlc]; [|auto].
    fold (key s pos) (key s (2 * pos + 1)).
    assert (H1 : (key s (2 * pos + 1) < key s pos)%N) by (apply H; try lia; apply par_lc).
    destruct (N.ltb_spec (key s pos) (key s (2 * pos + 1))); [lia|auto].
Qed.

Lemma hord_sift_up_pre s pos : hord s -> pos < hlen s ->
  (forall i, 0 < i -> i < hlen s -> i <> pos -> (key s i <= key s (par i))%N) /\
  (forall i, 0 < i -> i < hlen s -> par i = pos -> 0 < pos -> (key s i <= key s (par pos))%N).
Proof.
  intros H Hp. split; [auto|]. intros i H1 H2 H3 H4. pose proof (H i H1 H2). pose proof (H pos H4 Hp).
  rewrite H3 in *. lia.
Qed.

(* ---------------- set_key ---------------- *)

Lemma set_key_desc s p k : p < hlen s ->
  hlen (set_key s p k) = hlen s /\
  (forall i, hp (set_key s p k) i = if i =? p then (k, snd (hp s p)) else hp s i).
Proof.
  intros Hp. unfold set_key, hlen, hp. simpl. rewrite upd_length. split; [auto|].
  intros i. rewrite nth_upd. apply Nat.ltb_lt in Hp. unfold hlen in Hp. rewrite Hp.
  destruct (i =? p); reflexivity.
Qed.

Lemma set_key_ok n s v j k : hinv n s -> nth v (h_ix s) None = Some j ->
  let p := snd (el s j) in
  p < hlen s /\ hinv n (set_key s p k) /\ hlen (set_key s p k) = hlen s /\
  (forall i, key (set_key s p k) i = if i =? p then k else key s i) /\
  (forall u, habs (set_key s p k) u = qset (habs s) v (Some k) u).
Proof.
  intros H Hj p. destruct (hi_ix _ _ H _ _ Hj) as [Hjl Hjv].
  destruct (hi_el _ _ H j Hjl) as (Hp & Hpj & _). fold p in Hp, Hpj.
  destruct (set_key_desc s p k Hp) as [Hl Hhp].
  assert (Hsnd : forall i, snd (hp (set_key s p k) i) = snd (hp s i)).
  { intros i. rewrite Hhp. destruct (Nat.eqb_spec i p) as [->|]; reflexivity. }
  assert (Hkey : forall i, key (set_key s p k) i = if i =? p then k else key s i).
  { intros i. unfold key. rewrite Hhp. destruct (i =? p); reflexivity. }
  split; [auto|]. split; [|split; [auto|split; [auto|]]].
  - constructor; try rewrite Hl.
    + apply H.
    + apply H.
    + intros i Hi. rewrite Hsnd. change (el (set_key s p k)) with (el s). now apply (hi_hp _ _ H).
    + intros i Hi. change (el (set_key s p k)) with (el s). change (h_ix (set_key s p k)) with (h_ix s).
      rewrite Hsnd. now apply (hi_el _ _ H).
    + apply (hi_ix _ _ H).
  - intros u. unfold habs, qset. change (el (set_key s p k)) with (el s). change (h_ix (set_key s p k)) with (h_ix s).
    destruct (Nat.eqb_spec u v) as [->|Hne].
    + rewrite Hj, Hkey. fold p. now rewrite Nat.eqb_refl.
    + destruct (nth u (h_ix s) None) as [j'|] eqn:E; [|auto]. rewrite Hkey.
      destruct (hi_ix _ _ H _ _ E) as [Hj' Hv']. destruct (hi_el _ _ H j' Hj') as (_ & Hp' & _).
      destruct (Nat.eqb_spec (snd (el s j')) p) as [Ep|]; [|auto]. exfalso.
      rewrite Ep, Hpj in Hp'. congruence.
Qed.

Lemma heap_pos_spec n s v : hinv n s -> habs s v <> None ->
  exists j, nth v (h_ix s) None = Some j /\ heap_pos s v = Some (snd (el s j)) /\
    habs s v = Some (key s (snd (el s j))).
Proof.
  intros H Hv. unfold habs in *. destruct (nth v (h_ix s) None) as [j|] eqn:E; [|congruence].
  exists j. split; [auto|]. split; [|auto]. unfold heap_pos.
  destruct (lt_dec v (length (h_ix s))) as [Hl|Hl].
  - rewrite (nth_error_nth_lt _ _ None Hl), E. reflexivity.
  - rewrite nth_overflow in E by lia. discriminate.
Qed.

Definition wfh (n : nat) (s : heap) : Prop := hinv n s /\ hord s.

Lemma increase_ok n s v k k0 : wfh n s -> habs s v = Some k0 -> (k0 <= key32 k)%N ->
  exists s', heap_increase_key s v k = Some s' /\ wfh n s' /\
    (forall u, habs s' u = qset (habs s) v (Some (key32 k)) u).
Proof.
  intros [H Ho] Hv Hk. destruct (heap_pos_spec n s v H) as (j & Hj & Hpos & Hkey); [congruence|].
  unfold heap_increase_key. rewrite Hpos.
  destruct (set_key_ok n s v j (key32 k) H Hj) as (Hp & H' & Hl & Hk' & Ha).
  set (p := snd (el s j)) in *. rewrite Hkey in Hv. injection Hv as <-.
  destruct (sift_up_ok n (S p) (set_key s p (key32 k)) p H') as (s' & Hs & Hi & _ & Ho' & Ha'); try lia.
  - rewrite Hl. intros i Hi0 Hil Hne. rewrite !Hk'. destruct (Nat.eqb_spec i p); [contradiction|].
    pose proof (Ho i Hi0 Hil). destruct (Nat.eqb_spec (par i) p) as [E|]; [rewrite E in *; lia|auto].
  - rewrite Hl. intros i Hi0 Hil Hpi Hp0. rewrite !Hk'. pose proof (par_lt p Hp0). pose proof (par_lt i Hi0).
    destruct (Nat.eqb_spec i p); [lia|]. destruct (Nat.eqb_spec (par p) p); [lia|].
    pose proof (Ho i Hi0 Hil). pose proof (Ho p Hp0 Hp). rewrite Hpi in *. lia.
  - exists s'. split; [auto|]. split; [split; auto|]. intros u. now rewrite Ha', Ha.
Qed.

Lemma decrease_ok n s v k k0 : wfh n s -> habs s v = Some k0 -> (key32 k <= k0)%N ->
  exists s', heap_decrease_key s v k = Some s' /\ wfh n s' /\
    (forall u, habs s' u = qset (habs s) v (Some (key32 k)) u).
Proof.
  intros [H Ho] Hv Hk. destruct (heap_pos_spec n s v H) as (j & Hj & Hpos & Hkey); [congruence|].
  unfold heap_decrease_key. rewrite Hpos.
  destruct (set_key_ok n s v j (key32 k) H Hj) as (Hp & H' & Hl & Hk' & Ha).
  set (p := snd (el s j)) in *. rewrite Hkey in Hv. injection Hv as <-.
  destruct (sift_down_ok n (length (h_hp s)) (set_key s p (key32 k)) p H') as (s' & Hs & Hi & _ & Ho' & Ha'); try lia.
  - fold (hlen s). lia.
  - rewrite Hl. intros i Hi0 Hil Hne. rewrite !Hk'. destruct (Nat.eqb_spec (par i) p); [contradiction|].
    pose proof (Ho i Hi0 Hil). destruct (Nat.eqb_spec i p) as [->|]; [lia|auto].
  - rewrite Hl. intros i Hi0 Hil Hpi Hp0. rewrite !Hk'. pose proof (par_lt p Hp0). pose proof (par_lt i Hi0).
    destruct (Nat.eqb_spec i p); [lia|]. destruct (Nat.eqb_spec (par p) p); [lia|].
    pose proof (Ho i Hi0 Hil). pose proof (Ho p Hp0 Hp). rewrite Hpi in *. lia.
  - exists s'. split; [auto|]. split; [split; auto|]. intros u. now rewrite Ha', Ha.
Qed.

Lemma change_ok n s v k : wfh n s -> habs s v <> None ->
  exists s', heap_change_key s v k = Some s' /\ wfh n s' /\
    (forall u, habs s' u = qset (habs s) v (Some (key32 k)) u).
Proof.
  intros Hw Hv. pose proof Hw as [H Ho]. destruct (heap_pos_spec n s v H Hv) as (j & Hj & Hpos & Hkey).
  unfold heap_change_key. rewrite Hpos. fold (key s (snd (el s j))).
  destruct (N.ltb_spec (key32 k) (key s (snd (el s j)))); [eapply decrease_ok; eauto; lia|].
  destruct (N.ltb_spec (key s (snd (el s j))) (key32 k)); [eapply increase_ok; eauto|].
  exists s. split; [auto|]. split; [auto|]. intros u. unfold qset.
  destruct (Nat.eqb_spec u v) as [->|]; [|auto]. rewrite Hkey. f_equal. lia.
Qed.

(* ---------------- insert ---------------- *)

Lemma insert_ok n s v k : wfh n s -> v < n ->
  exists s', heap_insert s v k = Some s' /\ wfh n s' /\
    (forall u, habs s' u = match habs s v with None => qset (habs s) v (Some (key32 k)) u | Some _ => habs s u end).
Proof.
  intros [H Ho] Hv. unfold heap_insert.
  rewrite (nth_error_nth_lt _ _ None) by (rewrite (hi_n _ _ H); auto).
  destruct (nth v (h_ix s) None) as [j|] eqn:E.
  - exists s. split; [auto|]. split; [split; auto|]. intros u. unfold habs at 2. now rewrite E.
  - set (L := hlen s). rewrite (hi_len _ _ H). fold L. change (length (h_hp s)) with L.
    set (s1 := mk_heap (h_el s ++ [(v, L)]) (upd (h_ix s) v (Some L)) (h_hp s ++ [(key32 k, L)])).
    assert (Hl1 : hlen s1 = S L) by (unfold s1, hlen; simpl; rewrite app_length; simpl; unfold L, hlen; lia).
    assert (Hhp : forall i, i < L -> hp s1 i = hp s i).
    { intros i Hi. unfold hp, s1. simpl. now rewrite app_nth1. }
    assert (HhpL : hp s1 L = (key32 k, L)).
    { unfold hp, s1. simpl. rewrite app_nth2 by (unfold L, hlen; lia). unfold L, hlen. now rewrite Nat.sub_diag. }
    assert (Hel : forall i, i < L -> el s1 i = el s i).
    { intros i Hi. unfold el, s1. simpl. rewrite app_nth1; [auto|]. rewrite (hi_len _ _ H). auto. }
    assert (HelL : el s1 L = (v, L)).
    { unfold el, s1. simpl. rewrite app_nth2 by (rewrite (hi_len _ _ H); unfold L; lia).
      rewrite (hi_len _ _ H). fold L. now rewrite Nat.sub_diag. }
    assert (Hix : forall u, nth u (h_ix s1) None = if u =? v then Some L else nth u (h_ix s) None).
    { intros u. unfold s1. simpl. rewrite nth_upd, (hi_n _ _ H). apply Nat.ltb_lt in Hv. rewrite Hv.
      destruct (u =? v); reflexivity. }
    assert (Hi1 : hinv n s1).
    { constructor; try rewrite Hl1.
      - unfold s1. simpl. rewrite app_length, (hi_len _ _ H). simpl. fold L. lia.
      - unfold s1. simpl. rewrite upd_length. apply H.
      - intros i Hi. destruct (Nat.eq_dec i L) as [->|].
        + rewrite HhpL. simpl. rewrite HelL. simpl. lia.
        + assert (Hi' : i < L) by lia. destruct (hi_hp _ _ H i Hi') as [H1 H2].
          rewrite Hhp by auto. rewrite Hel by auto. fold L in H1. lia.
      - intros j Hj. destruct (Nat.eq_dec j L) as [->|].
        + rewrite HelL. simpl. rewrite HhpL, Hix, Nat.eqb_refl. simpl. repeat split; auto; lia.
        + assert (Hj' : j < L) by lia. destruct (hi_el _ _ H j Hj') as (H1 & H2 & H3 & H4).
          rewrite Hel by auto. rewrite Hhp, Hix by auto. fold L in H1.
          destruct (Nat.eqb_spec (fst (el s j)) v); [congruence|]. repeat split; auto; lia.
      - intros u j. rewrite Hix. destruct (Nat.eqb_spec u v) as [->|].
        + injection 1 as <-. rewrite HelL. simpl. lia.
        + intros Hu. destruct (hi_ix _ _ H _ _ Hu) as [H1 H2]. rewrite Hel by auto. fold L in H1. lia. }
    assert (Hkey : forall i, i < L -> key s1 i = key s i) by (intros; unfold key; now rewrite Hhp).
    destruct (sift_up_ok n (S L) s1 L Hi1) as (s' & Hs & Hi' & _ & Ho' & Ha'); try lia.
    + rewrite Hl1. intros i Hi0 Hil Hne. pose proof (par_lt i Hi0).
      rewrite !Hkey by lia. apply Ho; [auto|]. fold L. lia.
    + rewrite Hl1. intros i Hi0 Hil Hpi Hp0. pose proof (par_lt i Hi0). lia.
    + exists s'. split; [auto|]. split; [split; auto|]. intros u. rewrite Ha'.
      unfold habs at 2. rewrite E. unfold habs, qset. rewrite Hix.
      destruct (Nat.eqb_spec u v) as [->|].
      * rewrite HelL. simpl. unfold key. rewrite HhpL. reflexivity.
      * destruct (nth u (h_ix s) None) as [j|] eqn:Eu; [|auto].
        destruct (hi_ix _ _ H _ _ Eu) as [Hj _]. rewrite Hel by auto.
        destruct (hi_el _ _ H j Hj) as [Hj2 _]. rewrite Hkey by auto. reflexivity.
Qed.

(* ---------------- deletion ---------------- *)

Lemma pop_back_length {A} (l : list A) : length (pop_back l) = length l - 1.
Proof. unfold pop_back. rewrite firstn_length. lia. Qed.

Lemma pop_back_nth {A} (l : list A) i d : i < length l - 1 -> nth i (pop_back l) d = nth i l d.
Proof.
  unfold pop_back. intros H.
  transitivity (nth i (firstn (length l - 1) l ++ skipn (length l - 1) l) d).
  - rewrite app_nth1; [auto|]. rewrite firstn_length. lia.
  - now rewrite firstn_skipn.
Qed.

(* the state after removing element ei, described pointwise *)
Record deleted (n : nat) (s : heap) (ei : nat) (s3 : heap) : Prop := mk_deleted {
  dl_len : hlen s3 = hlen s - 1;
  dl_ellen : length (h_el s3) = hlen s - 1;
  dl_n : length (h_ix s3) = n;
  dl_hp : forall i, i < hlen s - 1 ->
     let i0 := if i =? snd (el s ei) then hlen s - 1 else i in
     hp s3 i = (key s i0, if snd (hp s i0) =? hlen s - 1 then ei else snd (hp s i0));
  dl_el : forall j, j < hlen s - 1 ->
     let j0 := if j =? ei then hlen s - 1 else j in
     el s3 j = (fst (el s j0), if snd (el s j0) =? hlen s - 1 then snd (el s ei) else snd (el s j0));
  dl_ix : forall u, nth u (h_ix s3) None =
     if u =? fst (el s ei) then None
     else match nth u (h_ix s) None with
          | Some j => Some (if j =? hlen s - 1 then ei else j) | None => None end }.

Lemma el_inj n s j j' : hinv n s -> j < hlen s -> j' < hlen s -> snd (el s j) = snd (el s j') -> j = j'.
Proof.
  intros H Hj Hj' E. destruct (hi_el _ _ H j Hj) as (_ & H1 & _). destruct (hi_el _ _ H j' Hj') as (_ & H2 & _).
  rewrite <- H1, <- H2, E. reflexivity.
Qed.

Lemma node_inj n s j j' : hinv n s -> j < hlen s -> j' < hlen s -> fst (el s j) = fst (el s j') -> j = j'.
Proof.
  intros H Hj Hj' E. destruct (hi_el _ _ H j Hj) as (_ & _ & _ & H1). destruct (hi_el _ _ H j' Hj') as (_ & _ & _ & H2).
  rewrite E in H1. congruence.
Qed.

Ltac eqb_cases :=
  repeat match goal with
  | |- context [?a =? ?b] => destruct (Nat.eqb_spec a b)
  end.

Lemma deleted_hinv n s ei s3 : hinv n s -> ei < hlen s -> deleted n s ei s3 -> hinv n s3.
Proof.
  intros H Hei [Hl Hle Hn Hhp Hel Hix]. set (L := hlen s) in *. set (hi := snd (el s ei)) in *.
  destruct (hi_el _ _ H ei Hei) as (Hhi & Hhi2 & _). fold hi in Hhi, Hhi2. fold L in Hhi.
  constructor.
  - congruence.
  - auto.
  - rewrite Hl. intros i Hi. rewrite (Hhp i Hi). simpl.
    set (i0 := if i =? hi then L - 1 else i).
    assert (Hi0 : i0 < L) by (unfold i0; destruct (i =? hi); lia).
    assert (Hi0hi : i0 <> hi) by (unfold i0; destruct (Nat.eqb_spec i hi); lia).
    destruct (hi_hp _ _ H i0 Hi0) as [H1 H2]. fold L in H1. set (j0 := snd (hp s i0)) in *.
    assert (Hj0 : j0 <> ei) by (intros ->; apply Hi0hi; rewrite <- H2; reflexivity).
    assert (Hres : forall j1, j1 < L - 1 -> (if j1 =? ei then L - 1 else j1) = j0 -> snd (el s3 j1) = i).
    { intros j1 Hj1 E. rewrite (Hel j1 Hj1). simpl. rewrite E, H2.
      unfold i0. destruct (Nat.eqb_spec i hi) as [->|]; [now rewrite Nat.eqb_refl|].
      destruct (Nat.eqb_spec i (L - 1)); [lia|auto]. }
    destruct (Nat.eqb_spec j0 (L - 1)) as [E|E].
    + split; [lia|]. apply Hres; [lia|]. rewrite Nat.eqb_refl. lia.
    + split; [lia|]. apply Hres; [lia|]. destruct (Nat.eqb_spec j0 ei); [contradiction|auto].
  - rewrite Hl. intros j Hj. rewrite (Hel j Hj). cbv zeta. simpl.
    set (j0 := if j =? ei then L - 1 else j).
    assert (Hj0 : j0 < L) by (unfold j0; destruct (j =? ei); lia).
    assert (Hj0ei : j0 <> ei) by (unfold j0; destruct (Nat.eqb_spec j ei); lia).
    destruct (hi_el _ _ H j0 Hj0) as (H1 & H2 & H3 & H4). fold L in H1. set (p0 := snd (el s j0)) in *.
    assert (Hp0 : p0 <> hi) by (intros E; apply Hj0ei; apply (el_inj n s); auto).
    assert (Hres : forall p1, p1 < L - 1 -> (if p1 =? hi then L - 1 else p1) = p0 -> snd (hp s3 p1) = j).
    { intros p1 Hp1 E. rewrite (Hhp p1 Hp1). simpl. rewrite E, H2.
      unfold j0. destruct (Nat.eqb_spec j ei) as [->|]; [now rewrite Nat.eqb_refl|].
      destruct (Nat.eqb_spec j (L - 1)); [lia|auto]. }
    assert (Hfst : fst (el s j0) <> fst (el s ei)) by (intros E; apply Hj0ei; apply (node_inj n s); auto).
    assert (Hixx : nth (fst (el s j0)) (h_ix s3) None = Some j).
    { rewrite Hix, H4. destruct (Nat.eqb_spec (fst (el s j0)) (fst (el s ei))); [contradiction|].
      f_equal. unfold j0. destruct (Nat.eqb_spec j ei) as [->|]; [now rewrite Nat.eqb_refl|].
      destruct (Nat.eqb_spec j (L - 1)); [lia|auto]. }
    destruct (Nat.eqb_spec p0 (L - 1)) as [E|E].
    + split; [lia|]. split; [apply Hres; [lia|rewrite Nat.eqb_refl; lia]|auto].
    + split; [lia|]. split; [apply Hres; [lia|]|auto]. destruct (Nat.eqb_spec p0 hi); [contradiction|auto].
  - intros u j. rewrite Hix, Hl. destruct (Nat.eqb_spec u (fst (el s ei))) as [->|Hu]; [discriminate|].
    destruct (nth u (h_ix s) None) as [j0|] eqn:E; [|discriminate].
    destruct (hi_ix _ _ H _ _ E) as [Hj0 Hu0]. fold L in Hj0.
    assert (j0 <> ei) by congruence.
    injection 1 as <-. destruct (Nat.eqb_spec j0 (L - 1)) as [E'|E'].
    + split; [lia|]. rewrite (Hel ei) by lia. cbv zeta. simpl. rewrite Nat.eqb_refl, <- E'. auto.
    + split; [lia|]. rewrite (Hel j0) by lia. cbv zeta. simpl.
      destruct (Nat.eqb_spec j0 ei); [contradiction|]. auto.
Qed.

Lemma deleted_abs n s ei s3 : hinv n s -> ei < hlen s -> deleted n s ei s3 ->
  (forall u, habs s3 u = qset (habs s) (fst (el s ei)) None u) /\
  (forall i, i < hlen s - 1 -> key s3 i = if i =? snd (el s ei) then key s (hlen s - 1) else key s i).
Proof.
  intros H Hei Hd. pose proof Hd as [Hl Hle Hn Hhp Hel Hix]. 
  assert (Hkey : forall i, i < hlen s - 1 -> key s3 i = if i =? snd (el s ei) then key s (hlen s - 1) else key s i).
  { intros i Hi. unfold key at 1. rewrite (Hhp i Hi). simpl. destruct (i =? _); auto. }
  split; [|exact Hkey].
  set (L := hlen s) in *. set (hi := snd (el s ei)) in *.
  intros u. unfold qset. unfold habs. rewrite Hix. destruct (Nat.eqb_spec u (fst (el s ei))) as [->|Hu]; [auto|].
  destruct (nth u (h_ix s) None) as [j0|] eqn:E; [|auto].
  destruct (hi_ix _ _ H _ _ E) as [Hj0 Hu0]. fold L in Hj0.
  assert (Hne : j0 <> ei) by congruence.
  destruct (hi_el _ _ H j0 Hj0) as (Hp0 & _). fold L in Hp0.
  assert (Hpne : snd (el s j0) <> hi) by (intros E'; apply Hne; apply (el_inj n s); auto).
  destruct (hi_el _ _ H ei Hei) as (Hhi & _). fold hi in Hhi. fold L in Hhi.
  set (j1 := if j0 =? L - 1 then ei else j0).
  assert (Hj1 : j1 < L - 1) by (unfold j1; destruct (Nat.eqb_spec j0 (L - 1)); lia).
  assert (Hj1' : (if j1 =? ei then L - 1 else j1) = j0).
  { unfold j1. destruct (Nat.eqb_spec j0 (L - 1)); [now rewrite Nat.eqb_refl|].
    destruct (Nat.eqb_spec j0 ei); [contradiction|auto]. }
  rewrite (Hel j1 Hj1). cbv zeta. simpl. rewrite Hj1'.
  destruct (Nat.eqb_spec (snd (el s j0)) (L - 1)) as [E'|E'].
  - rewrite Hkey by lia. rewrite Nat.eqb_refl. now rewrite E'.
  - rewrite Hkey by lia. destruct (Nat.eqb_spec (snd (el s j0)) hi); [contradiction|auto].
Qed.

(* both deletion routines produce the described state *)
Lemma delete_core n s ei hp1 e2 el2 hp2 ix2 : hinv n s -> ei < hlen s ->
  let L := hlen s in let hi := snd (el s ei) in
  let el1 := set_index (h_el s) (snd (nth hi hp1 (0%N, 0))) hi in
  let ix1 := upd (h_ix s) (fst (el s ei)) None in
  length hp1 = L -> nth hi hp1 (0%N, 0) = hp s (L - 1) ->
  (forall i, i < L - 1 -> nth i hp1 (0%N, 0) = if i =? hi then hp s (L - 1) else hp s i) ->
  (ei <> L - 1 -> length e2 = L /\ forall j, j < L - 1 -> nth j e2 (0, 0) = if j =? ei then nth (L - 1) el1 (0, 0) else nth j el1 (0, 0)) ->
  (el2, hp2, ix2) =
    (if negb (ei =? length el1 - 1) then
       (e2, upd hp1 (snd (nth ei e2 (0, 0))) (fst (nth (snd (nth ei e2 (0, 0))) hp1 (0%N, 0)), ei),
        upd ix1 (fst (nth ei e2 (0, 0))) (Some ei))
     else (el1, hp1, ix1)) ->
  deleted n s ei (mk_heap (pop_back el2) ix2 (pop_back hp2)).
Proof.
  intros H Hei L hi el1 ix1 Hlhp1 Hhi1 Hhp1 He2 E.
  assert (Hl1 : length el1 = L) by (unfold el1; rewrite set_index_length; apply H).
  destruct (hi_el _ _ H ei Hei) as (Hhi & Hhi2 & Hvn & Hvix). fold hi in Hhi, Hhi2. fold L in Hhi.
  assert (HL : L - 1 < L) by (unfold L; lia).
  destruct (hi_hp _ _ H (L - 1) HL) as [Hlast1 Hlast2]. fold L in Hlast1.
  assert (Hel1 : forall j, j < L -> nth j el1 (0, 0) = (fst (el s j), if snd (el s j) =? L - 1 then hi else snd (el s j))).
  { intros j Hj. unfold el1. rewrite Hhi1, el_set_index by (rewrite (hi_len _ _ H); auto).
    fold (el s j) (el s (snd (hp s (L - 1)))).
    destruct (Nat.eqb_spec j (snd (hp s (L - 1)))) as [->|Hne].
    - rewrite Hlast2, Nat.eqb_refl. reflexivity.
    - destruct (Nat.eqb_spec (snd (el s j)) (L - 1)) as [E'|_]; [|now destruct (el s j)].
      exfalso. apply Hne. destruct (hi_el _ _ H j Hj) as (_ & H2 & _). now rewrite E' in H2. }
  assert (Hix1 : forall u, nth u ix1 None = if u =? fst (el s ei) then None else nth u (h_ix s) None).
  { intros u. unfold ix1. rewrite nth_upd, (hi_n _ _ H). apply Nat.ltb_lt in Hvn. rewrite Hvn.
    destruct (u =? _); reflexivity. }
  rewrite Hl1 in E. destruct (Nat.eqb_spec ei (L - 1)) as [Hlast|Hnl]; simpl in E; injection E as -> -> ->.
  - (* the removed element is the last one *)
    constructor; fold L; fold hi.
    + unfold hlen; simpl. rewrite pop_back_length, Hlhp1. reflexivity.
    + simpl. rewrite pop_back_length, Hl1. reflexivity.
    + simpl. unfold ix1. rewrite upd_length. apply H.
    + intros i Hi. unfold hp at 1. simpl h_hp. rewrite pop_back_nth by lia. rewrite Hhp1 by auto.
      set (i0 := if i =? hi then L - 1 else i).
      assert (Hi0 : i0 < L) by (unfold i0; destruct (i =? hi); lia).
      assert (Hi0hi : i0 <> hi) by (unfold i0; destruct (Nat.eqb_spec i hi); lia).
      replace (if i =? hi then hp s (L - 1) else hp s i) with (hp s i0) by (unfold i0; destruct (i =? hi); auto).
      destruct (Nat.eqb_spec (snd (hp s i0)) (L - 1)) as [E|E].
      * exfalso. apply Hi0hi. apply (hp_inj n s); auto. congruence.
      * unfold key. now destruct (hp s i0).
    + intros j Hj. unfold el at 1. simpl h_el. rewrite pop_back_nth by lia. rewrite Hel1 by lia.
      destruct (Nat.eqb_spec j ei); [lia|]. reflexivity.
    + intros u. simpl h_ix. rewrite Hix1. destruct (Nat.eqb_spec u (fst (el s ei))); [auto|].
      destruct (nth u (h_ix s) None) as [j|] eqn:Eu; [|auto]. destruct (Nat.eqb_spec j (L - 1)); [|auto].
      destruct (hi_ix _ _ H _ _ Eu). congruence.
  - destruct (He2 Hnl) as [Hl2 He2']. clear He2.
    assert (Heilt : ei < L - 1) by (fold L in Hei; lia).
    assert (Hei2 : nth ei e2 (0, 0) = (fst (el s (L - 1)), if snd (el s (L - 1)) =? L - 1 then hi else snd (el s (L - 1)))).
    { rewrite He2' by auto. rewrite Nat.eqb_refl. apply Hel1. auto. }
    rewrite Hei2. simpl fst. simpl snd.
    set (q := if snd (el s (L - 1)) =? L - 1 then hi else snd (el s (L - 1))).
    destruct (hi_el _ _ H (L - 1) HL) as (Hq1 & Hq2 & Hq3 & Hq4). fold L in Hq1.
    assert (Hpe : snd (el s (L - 1)) <> hi) by (intros E; apply Hnl; symmetry; apply (el_inj n s); auto).
    assert (Hqlt : q < L - 1) by (unfold q; destruct (Nat.eqb_spec (snd (el s (L - 1))) (L - 1)); lia).
    constructor; fold L; fold hi.
    + unfold hlen; simpl. rewrite pop_back_length, upd_length, Hlhp1. reflexivity.
    + simpl. rewrite pop_back_length, Hl2. reflexivity.
    + simpl. unfold ix1. rewrite !upd_length. apply H.
    + intros i Hi. unfold hp at 1. simpl h_hp. rewrite pop_back_nth by (rewrite upd_length; lia).
      set (i0 := if i =? hi then L - 1 else i).
      assert (Hi0 : i0 < L) by (unfold i0; destruct (i =? hi); lia).
      assert (Hi0hi : i0 <> hi) by (unfold i0; destruct (Nat.eqb_spec i hi); lia).
      assert (Hi0e : forall i, i < L - 1 -> nth i hp1 (0%N, 0) = hp s (if i =? hi then L - 1 else i)).
      { intros i' Hi'. rewrite Hhp1 by auto. destruct (i' =? hi); auto. }
      assert (Hiq : i = q <-> snd (hp s i0) = L - 1).
      { split.
        - intros ->. unfold i0, q. destruct (Nat.eqb_spec (snd (el s (L - 1))) (L - 1)) as [E|E].
          + rewrite Nat.eqb_refl. rewrite <- E at 1. auto.
          + destruct (Nat.eqb_spec (snd (el s (L - 1))) hi); [contradiction|auto].
        - intros E. assert (i0 = snd (el s (L - 1))) as E0.
          { apply (hp_inj n s); auto. congruence. }
          unfold q. destruct (Nat.eqb_spec (snd (el s (L - 1))) (L - 1)) as [E1|E1].
          + unfold i0 in E0. destruct (Nat.eqb_spec i hi); [auto|lia].
          + unfold i0 in E0. destruct (Nat.eqb_spec i hi); [congruence|auto]. }
      rewrite nth_upd, Hlhp1. destruct (Nat.eqb_spec i q) as [Eq|Eq].
      * assert (Hb : (q <? L) = true) by (apply Nat.ltb_lt; lia). rewrite Hb. simpl.
        rewrite Hi0e by auto. rewrite <- Eq. fold i0.
        apply Hiq in Eq. rewrite Eq, Nat.eqb_refl. reflexivity.
      * simpl. rewrite Hi0e by auto. fold i0.
        destruct (Nat.eqb_spec (snd (hp s i0)) (L - 1)) as [E|E]; [apply Hiq in E; contradiction|].
        unfold key. now destruct (hp s i0).
    + intros j Hj. unfold el at 1. simpl h_el. rewrite pop_back_nth by lia. rewrite He2' by auto.
      destruct (j =? ei); rewrite Hel1 by lia; reflexivity.
    + intros u. simpl h_ix. rewrite nth_upd. unfold ix1. rewrite upd_length, (hi_n _ _ H). fold ix1. rewrite Hix1.
      assert (Hb : (fst (el s (L - 1)) <? n) = true) by now apply Nat.ltb_lt. rewrite Hb.
      assert (Hfne : fst (el s (L - 1)) <> fst (el s ei)) by (intros E; apply Hnl; symmetry; apply (node_inj n s); auto).
      destruct (Nat.eqb_spec u (fst (el s (L - 1)))) as [->|Hu]; simpl.
      * destruct (Nat.eqb_spec (fst (el s (L - 1))) (fst (el s ei))); [contradiction|].
        rewrite Hq4, Nat.eqb_refl. reflexivity.
      * destruct (Nat.eqb_spec u (fst (el s ei))); [auto|].
        destruct (nth u (h_ix s) None) as [j|] eqn:Eu; [|auto]. destruct (Nat.eqb_spec j (L - 1)); [|auto].
        destruct (hi_ix _ _ H _ _ Eu). congruence.
Qed.

Lemma hord_max s i : hord s -> i < hlen s -> (key s i <= key s 0)%N.
Proof.
  intros H. induction i as [i IH] using lt_wf_ind. intros Hi.
  destruct (Nat.eq_dec i 0) as [->|]; [lia|].
  pose proof (par_lt i ltac:(lia)). pose proof (H i ltac:(lia) Hi). specialize (IH (par i) H0 ltac:(lia)). lia.
Qed.

Lemma habs_None n s v : hinv n s -> hlen s = 0 -> habs s v = None.
Proof.
  intros H Hl. unfold habs. destruct (nth v (h_ix s) None) as [j|] eqn:E; [|auto].
  apply (hi_ix _ _ H) in E. lia.
Qed.

Lemma habs_top n s : wfh n s -> 0 < hlen s ->
  qmax (habs s) (fst (el s (snd (hp s 0)))) (key s 0).
Proof.
  intros [H Ho] Hl. destruct (hi_hp _ _ H 0 Hl) as [H1 H2]. destruct (hi_el _ _ H _ H1) as (_ & _ & _ & H3).
  split.
  - unfold habs. now rewrite H3, H2.
  - intros u k' Hu. unfold habs in Hu. destruct (nth u (h_ix s) None) as [j|] eqn:E; [|discriminate].
    injection Hu as <-. apply (hi_ix _ _ H) in E as [Hj _]. apply (hi_el _ _ H) in Hj as [Hj _].
    now apply hord_max.
Qed.

Lemma delete_node_ok n s v : wfh n s -> habs s v <> None ->
  exists s', heap_delete_node s v = Some s' /\ wfh n s' /\ (forall u, habs s' u = qset (habs s) v None u).
Proof.
  intros [H Ho] Hv. unfold habs in Hv. destruct (nth v (h_ix s) None) as [ei|] eqn:Eix; [|congruence]. clear Hv.
  destruct (hi_ix _ _ H _ _ Eix) as [Hei Hvei].
  assert (Hne : nth_error (h_ix s) v = Some (Some ei)).
  { destruct (lt_dec v (length (h_ix s))) as [Hl|Hl].
    - now rewrite (nth_error_nth_lt _ _ None Hl), Eix.
    - rewrite nth_overflow in Eix by lia. discriminate. }
  unfold heap_delete_node. rewrite Hne. cbv zeta.
  set (hi := snd (el s ei)).
  destruct (hi_el _ _ H ei Hei) as (Hhi & _). fold hi in Hhi.
  match goal with |- context [if negb ?b then ?x else ?y] => destruct (if negb b then x else y) as [[el2 hp2] ix2] eqn:E end.
  set (s3 := mk_heap (pop_back el2) ix2 (pop_back hp2)).
  assert (Hd : deleted n s ei s3).
  { unfold s3. eapply (delete_core n s ei (upd (upd (h_hp s) hi (hp s (length (h_hp s) - 1))) (length (h_hp s) - 1) (hp s hi)));
      [exact H|exact Hei| | | | |rewrite <- E; rewrite <- Hvei; reflexivity].
    - now rewrite !upd_length.
    - rewrite nth_upd. rewrite upd_length. fold (hlen s) hi. destruct (Nat.eqb_spec hi (hlen s - 1)) as [Eh|Eh].
      + assert (Hb : (hlen s - 1 <? hlen s) = true) by (apply Nat.ltb_lt; lia). rewrite Hb. simpl.
        fold hi. rewrite Eh. reflexivity.
      + simpl. rewrite nth_upd_eq; auto.
    - intros i Hi. rewrite nth_upd_neq by (unfold hlen in *; lia). rewrite nth_upd. fold (hlen s) hi.
      destruct (Nat.eqb_spec i hi) as [->|]; [|reflexivity]. apply Nat.ltb_lt in Hhi. rewrite Hhi. reflexivity.
    - intros Hnl. fold hi. split; [rewrite !upd_length, set_index_length; apply H|].
      intros j Hj. assert (Hlx : length (set_index (h_el s) (snd (nth hi (upd (upd (h_hp s) hi (hp s (length (h_hp s) - 1)))
                (length (h_hp s) - 1) (hp s hi)) (0%N, 0))) hi) = hlen s) by (rewrite set_index_length; apply H).
      rewrite Hlx. rewrite nth_upd_neq by lia. rewrite nth_upd, Hlx. destruct (Nat.eqb_spec j ei) as [->|]; [|reflexivity].
      apply Nat.ltb_lt in Hei. rewrite Hei. reflexivity. }
  pose proof (deleted_hinv _ _ _ _ H Hei Hd) as H3.
  destruct (deleted_abs _ _ _ _ H Hei Hd) as [Habs Hkey]. rewrite Hvei in Habs.
  pose proof (dl_len _ _ _ _ Hd) as Hl3. fold hi in Hkey.
  change (length (h_hp s3)) with (hlen s3).
  destruct (Nat.ltb_spec 1 (hlen s3)) as [H1|H1]; [destruct (Nat.ltb_spec hi (hlen s3)) as [H2|H2]|]; simpl andb; cbv iota.
  - (* keys of s3 *)
    assert (Hk : forall i, i < hlen s3 -> key s3 i = if i =? hi then key s (hlen s - 1) else key s i)
      by (intros; apply Hkey; lia).
    assert (Horig : forall i, 0 < i -> i < hlen s3 -> i <> hi -> par i <> hi -> (key s3 i <= key s3 (par i))%N).
    { intros i Hi0 Hil Hn1 Hn2. pose proof (par_lt i Hi0). rewrite !Hk by lia.
      destruct (Nat.eqb_spec i hi); [contradiction|]. destruct (Nat.eqb_spec (par i) hi); [contradiction|].
      apply Ho; lia. }
    assert (Hch : forall i, 0 < i -> i < hlen s3 -> par i = hi -> 0 < hi -> (key s3 i <= key s3 (par hi))%N).
    { intros i Hi0 Hil Hpi Hh0. pose proof (par_lt i Hi0). pose proof (par_lt hi Hh0). rewrite !Hk by lia.
      destruct (Nat.eqb_spec i hi); [lia|]. destruct (Nat.eqb_spec (par hi) hi); [lia|].
      pose proof (Ho i Hi0 ltac:(lia)) as Hx. pose proof (Ho hi Hh0 ltac:(lia)). rewrite Hpi in Hx. lia. }
    destruct (N.le_gt_cases (key s3 hi) (key s3 (par hi))) as [Hle|Hgt].
    + destruct (sift_down_ok n (hlen s3) s3 hi H3 H2 ltac:(lia)) as (s4 & -> & H4 & Hl4 & Ho4 & Ha4).
      * intros i Hi0 Hil Hn2. destruct (Nat.eq_dec i hi) as [->|]; auto.
      * exact Hch.
      * destruct (hord_sift_up_pre s4 hi Ho4 ltac:(lia)) as [P1 P2].
        destruct (sift_up_ok n (S hi) s4 hi H4 ltac:(lia) ltac:(lia) P1 P2) as (s5 & Hs5 & H5 & _ & Ho5 & Ha5).
        exists s5. split; [exact Hs5|]. split; [split; auto|]. intros u. now rewrite Ha5, Ha4, Habs.
    + assert (Hh0 : 0 < hi).
      { destruct (Nat.eq_dec hi 0) as [E0|]; [|lia]. rewrite E0 in Hgt. unfold par in Hgt. simpl in Hgt. lia. }
      assert (Hstay : sift_down (hlen s3) s3 hi = Some s3).
      { destruct (hlen s3) as [|f] eqn:Ef; [lia|]. apply sift_down_stay. rewrite Ef. intros i Hi0 Hil Hpi.
        pose proof (Hch i Hi0 Hil Hpi Hh0). lia. }
      rewrite Hstay.
      destruct (sift_up_ok n (S hi) s3 hi H3 H2 ltac:(lia)) as (s5 & Hs5 & H5 & _ & Ho5 & Ha5).
      * intros i Hi0 Hil Hne'. destruct (Nat.eq_dec (par i) hi) as [E0|]; [|auto].
        pose proof (Hch i Hi0 Hil E0 Hh0). rewrite E0. lia.
      * exact Hch.
      * exists s5. split; [exact Hs5|]. split; [split; auto|]. intros u. now rewrite Ha5, Habs.
  - exists s3. split; [auto|]. split; [split; [auto|]|auto].
    intros i Hi0 Hil. pose proof (par_lt i Hi0). rewrite !Hkey by lia.
    destruct (Nat.eqb_spec i hi); [lia|]. destruct (Nat.eqb_spec (par i) hi); [lia|]. apply Ho; lia.
  - exists s3. split; [auto|]. split; [split; [auto|]|auto]. intros i Hi0 Hil. lia.
Qed.

Lemma delete_max_ok n s : wfh n s -> 0 < hlen s ->
  exists s' v, heap_delete_max s = Some (s', Some v) /\ wfh n s' /\ qmax (habs s) v (key s 0) /\
    (forall u, habs s' u = qset (habs s) v None u).
Proof.
  intros Hw Hl. pose proof (habs_top n s Hw Hl) as Htop. destruct Hw as [H Ho].
  unfold heap_delete_max. destruct (h_hp s) as [|x0 xs] eqn:Ehp; [unfold hlen in Hl; rewrite Ehp in Hl; simpl in Hl; lia|].
  rewrite <- Ehp. clear x0 xs Ehp. cbv zeta.
  set (ei := snd (hp s 0)) in *. destruct (hi_hp _ _ H 0 Hl) as [Hei Hei2]. fold ei in Hei, Hei2.
  set (v := fst (el s ei)) in *.
  match goal with |- context [if negb ?b then ?x else ?y] => destruct (if negb b then x else y) as [[el2 hp2] ix2] eqn:E end.
  set (s3 := mk_heap (pop_back el2) ix2 (pop_back hp2)).
  assert (Hd : deleted n s ei s3).
  { unfold s3. eapply (delete_core n s ei (upd (h_hp s) 0 (hp s (length (h_hp s) - 1))));
      [exact H|exact Hei| | | | |rewrite Hei2, <- E; reflexivity].
    - now rewrite upd_length.
    - rewrite Hei2. rewrite nth_upd_eq; auto.
    - intros i Hi. rewrite Hei2, nth_upd. fold (hlen s). destruct (Nat.eqb_spec i 0) as [->|]; [|reflexivity].
      apply Nat.ltb_lt in Hl. rewrite Hl. reflexivity.
    - intros Hnl. rewrite Hei2. split; [rewrite !upd_length, set_index_length; apply H|].
      intros j Hj. assert (Hlx : length (set_index (h_el s) (snd (nth 0 (upd (h_hp s) 0 (hp s (length (h_hp s) - 1))) (0%N, 0))) 0) = hlen s)
        by (rewrite set_index_length; apply H).
      rewrite nth_upd, Hlx. destruct (Nat.eqb_spec j ei) as [->|]; [|reflexivity].
      apply Nat.ltb_lt in Hei. rewrite Hei. reflexivity. }
  pose proof (deleted_hinv _ _ _ _ H Hei Hd) as H3.
  destruct (deleted_abs _ _ _ _ H Hei Hd) as [Habs Hkey]. fold v in Habs. rewrite Hei2 in Hkey.
  pose proof (dl_len _ _ _ _ Hd) as Hl3.
  change (length (h_hp s3)) with (hlen s3).
  destruct (Nat.ltb_spec 1 (hlen s3)) as [H1|H1].
  - destruct (sift_down_ok n (hlen s3) s3 0 H3 ltac:(lia) ltac:(lia)) as (s4 & -> & H4 & Hl4 & Ho4 & Ha4).
    + intros i Hi0 Hil Hn2. pose proof (par_lt i Hi0). rewrite !Hkey by lia.
      destruct (Nat.eqb_spec i 0); [lia|]. destruct (Nat.eqb_spec (par i) 0); [lia|]. apply Ho; lia.
    + intros; lia.
    + exists s4, v. split; [auto|]. split; [split; auto|]. split; [auto|]. intros u. now rewrite Ha4, Habs.
  - exists s3, v. split; [auto|]. split; [split; [auto|]|auto]. intros i Hi0 Hil. lia.
Qed.

(* ---------------- size ---------------- *)

Lemma habs_size n s : hinv n s -> hlen s = qsize n (habs s).
Proof.
  intros H. unfold qsize. set (F := filter _ _).
  rewrite <- (hi_len _ _ H), <- (map_length fst).
  assert (Hnd : NoDup (map fst (h_el s))).
  { apply (NoDup_nth _ 0). intros i j Hi Hj E. rewrite map_length, (hi_len _ _ H) in Hi, Hj.
    assert (Hn : forall k, nth k (map fst (h_el s)) 0 = fst (el s k)) by (intros; unfold el; now rewrite <- (map_nth fst)).
    rewrite !Hn in E. now apply (node_inj n s). }
  assert (Hin : forall v, In v (map fst (h_el s)) <-> In v F).
  { intros v. unfold F. rewrite filter_In, in_seq. split.
    - intros Hv. apply (In_nth _ _ 0) in Hv as (j & Hj & E). rewrite map_length, (hi_len _ _ H) in Hj.
      change 0 with (fst (0, 0)) in E at 1. rewrite map_nth in E. change (nth j (h_el s) (0, 0)) with (el s j) in E.
      destruct (hi_el _ _ H j Hj) as (_ & _ & H1 & H2). rewrite E in *. unfold habs. rewrite H2. split; [lia|auto].
    - intros [_ Hv]. unfold habs in Hv. destruct (nth v (h_ix s) None) as [j|] eqn:E; [|discriminate].
      destruct (hi_ix _ _ H _ _ E) as [Hj Hv2]. rewrite <- Hv2. unfold el.
      apply in_map. apply nth_In. rewrite (hi_len _ _ H). exact Hj. }
  apply Nat.le_antisymm; apply NoDup_incl_length; auto.
  - intros v Hv. now apply Hin.
  - apply NoDup_filter, seq_NoDup.
  - intros v Hv. now apply Hin.
Qed.

Lemma wfh_init n : wfh n (heap_init n).
Proof.
  assert (Hnone : forall v, nth v (repeat (@None nat) n) None = None).
  { intros v. destruct (lt_dec v n); [now rewrite nth_repeat_lt|rewrite nth_overflow; auto; rewrite repeat_length; lia]. }
  split; [constructor|].
  - reflexivity.
  - apply repeat_length.
  - unfold hlen; simpl; lia.
  - unfold hlen; simpl; lia.
  - simpl. intros v j. rewrite Hnone. discriminate.
  - intros i. unfold hlen. simpl. lia.
Qed.

Lemma habs_init n v : habs (heap_init n) v = None.
Proof. apply (habs_None n); [apply wfh_init|reflexivity]. Qed.

Lemma nonempty_len n s m : hinv n s -> (forall u, m u = habs s u) -> nonempty m -> 0 < hlen s.
Proof.
  intros H Hm (v & k & Hv). rewrite Hm in Hv. destruct (Nat.eq_dec (hlen s) 0) as [E|]; [|lia].
  rewrite (habs_None n) in Hv; auto. discriminate.
Qed.

Lemma heap_step_ok n s m o : wfh n s -> (forall u, m u = habs s u) -> pre_heap n m o ->
  exists s' r, heap_step s o = Some (s', r) /\ wfh n s' /\ qstep n m o r (habs s').
Proof.
  intros Hw Hm Hpre. pose proof Hw as [H Ho].
  assert (Hqs : forall v x u, qset (habs s) v x u = qset m v x u).
  { intros v x u. unfold qset. destruct (u =? v); auto. }
  destruct o as [v k| |v|v k|v k|v k|v|v| | | | ]; simpl in *.
  - destruct (insert_ok n s v k Hw Hpre) as (s' & -> & Hw' & Ha). simpl.
    eexists _, _. split; [reflexivity|]. split; [auto|]. intros u. rewrite Ha, !Hm. destruct (habs s v); auto.
  - pose proof (nonempty_len _ _ _ H Hm Hpre) as Hl.
    destruct (delete_max_ok n s Hw Hl) as (s' & v & -> & Hw' & Hmx & Ha).
    eexists _, _. split; [reflexivity|]. split; [auto|]. split; [|intros u; now rewrite Ha].
    exists (key s 0). eapply qmax_ext; eauto.
  - destruct Hpre as [_ Hv]. rewrite Hm in Hv. destruct (delete_node_ok n s v Hw Hv) as (s' & -> & Hw' & Ha). simpl.
    eexists _, _. split; [reflexivity|]. split; [auto|]. intros u. now rewrite Ha.
  - destruct Hpre as [_ (k0 & Hv & Hk)]. rewrite Hm in Hv.
    destruct (increase_ok n s v k k0 Hw Hv Hk) as (s' & -> & Hw' & Ha). simpl.
    eexists _, _. split; [reflexivity|]. split; [auto|]. intros u. now rewrite Ha.
  - destruct Hpre as [_ (k0 & Hv & Hk)]. rewrite Hm in Hv.
    destruct (decrease_ok n s v k k0 Hw Hv Hk) as (s' & -> & Hw' & Ha). simpl.
    eexists _, _. split; [reflexivity|]. split; [auto|]. intros u. now rewrite Ha.
  - destruct Hpre as [_ Hv]. rewrite Hm in Hv. destruct (change_ok n s v k Hw Hv) as (s' & -> & Hw' & Ha). simpl.
    eexists _, _. split; [reflexivity|]. split; [auto|]. intros u. now rewrite Ha.
  - rewrite (nth_error_nth_lt _ _ None) by (rewrite (hi_n _ _ H); auto).
    rewrite Hm. destruct (nth v (h_ix s) None) as [j|] eqn:E; (eexists _, _; split; [reflexivity|]; split; [auto|]; split; [|intros u; now rewrite Hm]);
      unfold habs; rewrite E; split; congruence.
  - destruct Hpre as [_ Hv]. rewrite Hm in Hv. destruct (heap_pos_spec n s v H Hv) as (j & _ & Hp & Ha).
    rewrite Hp. simpl. eexists _, _. split; [reflexivity|]. split; [auto|]. split; [rewrite Hm; exact Ha|intros u; now rewrite Hm].
  - eexists _, _. split; [reflexivity|]. split; [auto|]. split; [|intros u; now rewrite Hm].
    fold (hlen s). rewrite (habs_size n s H). symmetry. now apply qsize_ext.
  - eexists _, _. split; [reflexivity|]. split; [auto|]. split; [|intros u; now rewrite Hm].
    fold (hlen s). destruct (Nat.eqb_spec (hlen s) 0) as [E|E]; split; try discriminate; auto.
    + intros _ v. rewrite Hm. now apply (habs_None n).
    + intros Hall. exfalso. pose proof (proj1 (habs_top n s Hw ltac:(lia))) as Ht. rewrite <- Hm, Hall in Ht. discriminate.
  - pose proof (nonempty_len _ _ _ H Hm Hpre) as Hl. pose proof (habs_top n s Hw Hl) as Ht.
    unfold hlen in Hl. destruct (h_hp s) eqn:E; [simpl in Hl; lia|].
    eexists _, _. split; [reflexivity|]. split; [auto|]. split; [|intros u; now rewrite Hm].
    exists (key s 0). eapply qmax_ext; eauto.
  - pose proof (nonempty_len _ _ _ H Hm Hpre) as Hl. pose proof (habs_top n s Hw Hl) as Ht.
    unfold hlen in Hl. destruct (h_hp s) eqn:E; [simpl in Hl; lia|].
    eexists _, _. split; [reflexivity|]. split; [auto|]. split; [|intros u; now rewrite Hm].
    eexists. eapply qmax_ext; eauto.
Qed.

Lemma heap_run_ok n : forall os s m, wfh n s -> (forall u, m u = habs s u) ->
  behaves (pre_heap n) n m os (heap_run s os).
Proof.
  induction os as [|o os IH]; intros s m Hw Hm; simpl; [auto|]. intros Hpre.
  destruct (heap_step_ok n s m o Hw Hm Hpre) as (s' & r & -> & Hw' & Hq).
  exists r, (heap_run s' os), (habs s'). split; [auto|]. split; [auto|]. apply IH; auto.
Qed.
