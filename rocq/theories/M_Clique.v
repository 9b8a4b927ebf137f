(* M_Clique.v - model of lib/algorithms/misc/maximal_clique.h: findCliques, neighborhoodIntersection, bronKerbosch and
   contractSemiIsolatedCliques on the mutable graph.  srt: std::sort with the comparison [pairs] of the first components
   (equal_neighborhood.h:32-35).  size_t and EdgeWeight are 64 bits wide in findCliques; the sums of
   contractSemiIsolatedCliques are ideal.  UNDEFINED_NODE is greater than every vertex: None in a comparison.  None as a
   result: access out of range, exit(1), or not finished within fuel.  Logging is not modelled. *)
From Verif Require Export M_Kernel.

(* definitions.h:40 UNDEFINED_EDGE as a weight *)
Definition undef_w : N := (2 ^ 64 - 1)%N.

(* maximal_clique.h:69-79 the vertex at a place of P or X; behind the end UNDEFINED_NODE *)
Definition at_head (l : list (nat * N)) : option nat := match l with [] => None | (a, _) :: _ => Some a end.
(* the comparisons of 81-118 with such a vertex: n <= p, n < p, n == p, n > p *)
Definition le_u (n : nat) (p : option nat) : bool := match p with None => true | Some q => n <=? q end.
Definition lt_u (n : nat) (p : option nat) : bool := match p with None => true | Some q => n <? q end.
Definition eq_u (n : nat) (p : option nat) : bool := match p with None => false | Some q => n =? q end.
Definition gt_u (n : nat) (p : option nat) : bool := match p with None => false | Some q => q <? n end.

(* maximal_clique.h:86-88 r_id is moved on *)
Fixpoint skip_lt (n : nat) (R : list nat) : list nat := match R with [] => [] | r :: R' => if r <? n then skip_lt n R' else R end.

(* maximal_clique.h:96-107, 109-118 the entry of X or P at hand: taken over, passed, or kept; prev: the weight in Nb at n_id - 1 *)
Definition ni_take (n : nat) (prev : option N) (l acc : list (nat * N)) : option (list (nat * N) * list (nat * N)) :=
  match l with
  | (a, w) :: l' =>
      if n =? a then match prev with None => None | Some wn => Some (l', acc ++ [(n, ((wn + w) mod 2 ^ 64)%N)]) end
      else if a <? n then Some (l', acc) else Some (l, acc)
  | [] => Some (l, acc)
  end.

(* maximal_clique.h:67-119 the loop; Nb: from n_id on; P, R, X: from p_id, r_id, x_id on *)
Fixpoint ni_loop (fuel : nat) (prev : option N) (Nb P : list (nat * N)) (R : list nat) (X ip ix : list (nat * N)) (ext light : N)
  : option (list (nat * N) * list (nat * N) * N * N) :=
  match Nb with
  | [] => Some (ip, ix, ext, light)
  | (n, wn) :: Nb' =>
      match fuel with
      | 0 => None
      | S fuel =>
          let p := at_head P in
          let x := at_head X in
          let adv := le_u n p && le_u n x in
          let N1 := if adv then Nb' else Nb in
          let prev1 := if adv then Some wn else prev in
          if lt_u n p && lt_u n x then
            let R1 := skip_lt n R in
            let hit := match R1 with r :: _ => r =? n | [] => false end in
            ni_loop fuel prev1 N1 P R1 X ip ix (if hit then ext else ((ext + wn) mod 2 ^ 64)%N) light
          else
            match ni_take n prev1 X ix, ni_take n prev1 P ip with
            | Some (X1, ix1), Some (P1, ip1) =>
                ni_loop fuel prev1 N1 P1 R X1 ip1 ix1 ext (if eq_u n p then match prev1 with Some w => N.min w light | None => light end else light)
            | _, _ => None
            end
      end
  end.
(* maximal_clique.h:51-123 neighborhoodIntersection: intersect_p, intersect_x, external_weight, new_lightest *)
Definition ni (Nb P : list (nat * N)) (R : list nat) (X : list (nat * N)) (ext light : N) : option (list (nat * N) * list (nat * N) * N * N) :=
  ni_loop (length Nb + length P + length X) None Nb P R X [] [] ext light.

(* maximal_clique.h:152-170 the members of P that are not neighbours of the pivot *)
Fixpoint bk_diff (fuel : nat) (Nb P : list (nat * N)) : list (nat * N) :=
  match fuel with
  | 0 => []
  | S fuel =>
      match P, Nb with
      | [], _ => []
      | p :: P', [] => p :: bk_diff fuel [] P'
      | p :: P', a :: Nb' =>
          if fst p <? fst a then p :: bk_diff fuel Nb P'
          else if fst a <? fst p then bk_diff fuel Nb' P
          else bk_diff fuel Nb' P'
      end
  end.

(* maximal_clique.h:198-205 n is removed from P *)
Fixpoint bk_erase (n : nat) (P : list (nat * N)) : list (nat * N) :=
  match P with [] => [] | p :: P' => if fst p =? n then P' else p :: bk_erase n P' end.
(* maximal_clique.h:207-214 n is added to X at its place (std::lower_bound) *)
Fixpoint bk_insert (n : nat) (X : list (nat * N)) : list (nat * N) :=
  match X with
  | [] => [(n, 0%N)]
  | x :: X' => if fst x <? n then x :: bk_insert n X' else if fst x =? n then X else (n, 0%N) :: X
  end.

(* getEdge for all edges, sorted: maximal_clique.h:147-151, 176-180 *)
Definition bk_nb (srt : list (nat * N) -> list (nat * N)) (G : mg) (n : nat) : list (nat * N) := srt (map fst (nth n (m_rows G) [])).

(* maximal_clique.h:172-216 the loop over intersect; bk: the recursive call.  The flag: what bronKerbosch returns *)
Fixpoint bk_loop (bk : list (nat * N) -> list nat -> list (nat * N) -> N -> N -> list (list nat) -> option (bool * list (list nat)))
    (srt : list (nat * N) -> list (nat * N)) (G : mg) (R : list nat) (ex : N) (todo P X : list (nat * N)) (light : N) (cs : list (list nat))
  : option (bool * list (list nat)) :=
  match todo with
  | [] => Some (true, cs)
  | (n, _) :: todo' =>
      match ni (bk_nb srt G n) P R X ex light with
      | None => None
      | Some (P1, X1, cex, light1) =>
          if ((2 * light1 * N.of_nat (length P + length R - 1)) mod 2 ^ 64 <=? cex)%N then Some (false, cs)
          else
            match bk P1 (R ++ [n]) X1 cex light1 cs with
            | None => None
            | Some (false, cs1) => Some (false, cs1)
            | Some (true, cs1) => bk_loop bk srt G R ex todo' (bk_erase n P) (bk_insert n X) light1 cs1
            end
      end
  end.

(* maximal_clique.h:125-218 bronKerbosch; cs: cliques *)
Fixpoint bk (fuel : nat) (srt : list (nat * N) -> list (nat * N)) (G : mg) (P : list (nat * N)) (R : list nat) (X : list (nat * N)) (ex light : N)
    (cs : list (list nat)) : option (bool * list (list nat)) :=
  match fuel with
  | 0 => None
  | S fuel =>
      if ((light * 2 * N.of_nat (length P + length R - 1)) mod 2 ^ 64 <? ex)%N then Some (false, cs)
      else
        match P with
        | [] => Some (true, match X with [] => cs ++ [R] | _ => cs end)
        | (n, _) :: _ =>
            let nb := bk_nb srt G n in
            bk_loop (bk fuel srt G) srt G R ex (bk_diff (length nb + length P) nb P) P X light cs
        end
  end.

(* maximal_clique.h:30-47 vertex n *)
Definition fc_vertex (srt : list (nat * N) -> list (nat * N)) (G : mg) (cs : list (list nat)) (n : nat) : option (list (list nat)) :=
  let row := map fst (nth n (m_rows G) []) in
  let P := filter (fun e => n <? fst e) row in
  let X := filter (fun e => negb (n <? fst e)) row in
  option_map snd (bk (S (length P)) srt G (srt P) [n] (srt X) (fold_left (fun s e => ((s + snd e) mod 2 ^ 64)%N) X 0%N) undef_w cs).

(* maximal_clique.h:28-49 findCliques, called once *)
Definition find_cliques (srt : list (nat * N) -> list (nat * N)) (G : mg) : option (list (list nat)) :=
  fold_left (fun o n => match o with Some cs => fc_vertex srt G cs n | None => None end) (seq 0 (m_n G)) (Some []).

(* maximal_clique.h:248-257 the edges of n: min_edgeweight, node_external *)
Definition ci_edge (c : list nat) (b : N * N) (h : half) : N * N :=
  if existsb (Nat.eqb (fst (fst h))) c then (N.min (fst b) (snd (fst h)), snd b) else (fst b, (snd b + snd (fst h))%N).
(* maximal_clique.h:246-266 a member of the clique: min_edgeweight, external *)
Definition ci_node (G : mg) (c : list nat) (b : N * N) (n : nat) : option (N * N) :=
  let '(mn, ne) := fold_left (ci_edge c) (nth n (m_rows G) []) (fst b, 0%N) in
  if (nth n (m_deg G) 0 - ne <? N.of_nat (length c - 1))%N then None else Some (mn, (snd b + ne)%N).
(* maximal_clique.h:230-285 one clique *)
Definition ci_clique (G : mg) (ts : list nat) (u : uf) (c : list nat) : option uf :=
  if existsb (isterm ts) c then Some u
  else
    match fold_left (fun o n => match o with Some b => ci_node G c b n | None => None end) c (Some (undef_w, 0%N)) with
    | None => None
    | Some (mn, external) =>
        if (external <=? 2 * mn * N.of_nat (length c - 1))%N && (1 <? length c) then
          fold_left (fun o n => match o with Some u => option_map fst (uf_union u n (nth 0 c 0)) | None => None end) c (Some u)
        else Some u
    end.
(* maximal_clique.h:220-291 contractSemiIsolatedCliques *)
Definition contract_cliques (cs : list (list nat)) (G : mg) (ts : list nat) : option uf :=
  fold_left (fun o c => match o with Some u => ci_clique G ts u c | None => None end) cs (Some (uf_init (m_n G))).
