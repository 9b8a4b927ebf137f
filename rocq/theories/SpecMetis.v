(* SpecMetis.v - specification of METIS files (edge weights, no vertex weights), independent of the reader.  A file is the
   list of its bytes. *)
From Verif Require Export Lib.

(** a numeral: digits and the number they denote; leading zeros are allowed *)
Definition value (ds : list nat) : N := fold_left (fun x c => x * 10 + N.of_nat (c - 48))%N ds 0%N.
Definition numeral (ds : list nat) (x : N) : Prop := ds <> [] /\ (forall c, In c ds -> 48 <= c <= 57) /\ value ds = x.

(** blanks at the end of a line: space, tab, carriage return *)
Definition blanks (s : list nat) : Prop := forall c, In c s -> c = 32 \/ c = 9 \/ c = 13.

(** the text of one neighbour: its number (from 1), followed by the weight in weighted files *)
Definition entry (weighted : bool) (e : nat * N) (s : list nat) : Prop :=
  if weighted then exists a b, s = a ++ 32 :: b /\ numeral a (N.of_nat (fst e) + 1) /\ numeral b (snd e)
  else numeral s (N.of_nat (fst e) + 1) /\ snd e = 1%N.

(** neighbours are separated by one space *)
Inductive entries (weighted : bool) : list (nat * N) -> list nat -> Prop :=
| en_nil s : blanks s -> entries weighted [] s
| en_last e a s : entry weighted e a -> blanks s -> entries weighted [e] (a ++ s)
| en_cons e e' es a s : entry weighted e a -> entries weighted (e' :: es) s -> entries weighted (e :: e' :: es) (a ++ 32 :: s).
Definition node_line (weighted : bool) (es : list (nat * N)) (l : list nat) : Prop := exists k s, l = repeat 32 k ++ s /\ entries weighted es s.

Definition comment (l : list nat) : Prop := exists s, l = 37 :: s /\ ~ In 10 s.
(** the lines of the nodes, with comments between them *)
Inductive node_lines (weighted : bool) : list (list (nat * N)) -> list (list nat) -> Prop :=
| nl_nil : node_lines weighted [] []
| nl_comment rows l ls : comment l -> node_lines weighted rows ls -> node_lines weighted rows (l :: ls)
| nl_node es rows l ls : node_line weighted es l -> node_lines weighted rows ls -> node_lines weighted (es :: rows) (l :: ls).

(** the header: numbers of nodes and edges, and the format: 1 if there are edge weights, 0 or nothing if not *)
Definition format (weighted : bool) (f : list nat) : Prop :=
  if weighted then exists d, f = 32 :: d /\ numeral d 1 else f = [] \/ exists d, f = 32 :: d /\ numeral d 0.
Definition header (n m : N) (weighted : bool) (h : list nat) : Prop :=
  exists a b f, h = a ++ 32 :: b ++ f /\ numeral a n /\ numeral b m /\ format weighted f.

(** lines end with a line feed; it may be missing after the last line if this line is not empty *)
Fixpoint join (final : bool) (ls : list (list nat)) : list nat :=
  match ls with
  | [] => []
  | [l] => l ++ (if final then [10] else [])
  | l :: ls' => l ++ 10 :: join final ls'
  end.
Definition metis_file (weighted : bool) (m : N) (rows : list (list (nat * N))) (bytes : list nat) : Prop :=
  exists pre h ls final, (forall l, In l pre -> comment l) /\ header (N.of_nat (length rows)) m weighted h /\ node_lines weighted rows ls /\
    (final = true \/ last (h :: ls) [] <> []) /\ bytes = join final (pre ++ h :: ls).

Definition in_bounds (rows : list (list (nat * N))) : Prop :=
  (N.of_nat (length rows) < 2 ^ 32)%N /\ forall u t w, In (t, w) (nth u rows []) -> t < length rows /\ (w < 2 ^ 64)%N.
Definition no_loops (rows : list (list (nat * N))) : Prop := forall u t w, In (t, w) (nth u rows []) -> t <> u.
(** the rows without self loops *)
Definition drop_loops (rows : list (list (nat * N))) : list (list (nat * N)) :=
  map (fun u => filter (fun e => negb (fst e =? u)) (nth u rows [])) (seq 0 (length rows)).
