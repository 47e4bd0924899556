(** * S_StdLines: [str::len] and [str::lines] of Rust's standard library, as
    their documentation describes them. *)
From Coq Require Export List Arith NArith.
From Verif Require Export S_Metrics.
Import ListNotations.

(** The bytes of a character in UTF-8, and [str::len]. *)
Definition utf8_bytes (c : N) : nat :=
  if (c <? 128)%N then 1 else if (c <? 2048)%N then 2 else if (c <? 65536)%N then 3 else 4.
Definition byte_len (text : list N) : nat := list_sum (map utf8_bytes text).

(** [str::lines]: a line loses the LF or the CR LF that ends it, nothing else. *)
Inductive stripped : list N -> list N -> Prop :=
| st_crlf b : stripped (b ++ [13; 10]%N) b
| st_lf b : (forall b', b <> b' ++ [13%N]) -> stripped (b ++ [10%N]) b
| st_open l : (forall b, l <> b ++ [10%N]) -> stripped l l.
Definition std_lines (text : list N) (ls : list (list N)) : Prop :=
  exists whole, lines [10%N] text whole /\ Forall2 stripped whole ls.

(** What [map_or(0, |l| l.len() + k)] adds, given the end of the text:
    line_colmn.rs:115-177 has one test for each. *)
Inductive ends_with : list N -> nat -> Prop :=
| ew_crlf b : ends_with (b ++ [13; 10]%N) 2
| ew_lf b : (forall b', b <> b' ++ [13%N]) -> ends_with (b ++ [10%N]) 1
| ew_none l : (forall b, l <> b ++ [10%N]) -> ends_with l 0.

(** The column the tests expect. *)
Definition expected_column (ls : list (list N)) (k : nat) : nat :=
  match ls with [] => 0 | _ => byte_len (last ls []) + k end.

(** All characters are ASCII. *)
Definition ascii (text : list N) : Prop := Forall (fun c => (c < 128)%N) text.
