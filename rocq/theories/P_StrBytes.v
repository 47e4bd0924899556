(** * P_StrBytes: property C73, texts of chars against UTF-8 bytes. *)
From Coq Require Import Lia.
From Verif Require Import M_Writer M_Utf8 M_Prim L_Seq L_Prim S_Utf8 S_StrBytes L_StrBytes P_Prim.

(** ** Lengths are bytes *)
Theorem C73_len (s : str) : seg_len s = length (bytes_of (chars s)).
Proof. symmetry. apply bytes_length. Qed.

(** ** What the model calls a boundary is what [str::is_char_boundary] says of the bytes. *)
Theorem C73_boundary (cs : list char) n :
  Forall scalar cs -> (boundary cs n <-> is_char_boundary (bytes_of cs) n).
Proof. intros V. now apply boundary_bytes. Qed.

(** ** [advance] is [self.get(n..).unwrap_or("")] on the bytes. *)
Theorem C73_advance (s : strref) n :
  Forall scalar (chars (sr_str s)) ->
  let bs := bytes_of (chars (sr_str s)) in
  exists s', advance s n = Ret s' /\ Forall scalar (chars (sr_str s')) /\
    (is_char_boundary bs n ->
       bytes_of (chars (sr_str s')) = skipn n bs /\ sr_alloc s' = sr_alloc s /\ sr_off s' = sr_off s + n) /\
    (~ is_char_boundary bs n -> bytes_of (chars (sr_str s')) = []).
Proof.
  intros V bs. cbn [advance strref_sequence]. unfold strref_advance.
  destruct (split_chars (chars (sr_str s)) n) as [[a b]|] eqn:E.
  - pose proof (split_chars_bytes _ _ _ _ E) as (A & B & C & D). eexists. split; [reflexivity|]. cbn [sr_str chars sr_alloc sr_off].
    assert (is_char_boundary bs n) by (apply boundary_bytes; [exact V|]; now exists a, b).
    split; [rewrite C in V; now apply Forall_app in V|]. split; [auto|tauto].
  - apply split_chars_none in E. rewrite (boundary_bytes _ V) in E. eexists. split; [reflexivity|]. cbn.
    split; [constructor|]. split; [tauto|reflexivity].
Qed.

(** ** [split_at] cuts the bytes, and panics exactly off the boundaries. *)
Theorem C73_split_at (s : str) n :
  Forall scalar (chars s) ->
  let bs := bytes_of (chars s) in
  (is_char_boundary bs n ->
     exists a b, seg_split_at s n = Ret (a, b) /\
       bytes_of (chars a) = firstn n bs /\ bytes_of (chars b) = skipn n bs) /\
  (~ is_char_boundary bs n -> seg_split_at s n = Panic).
Proof.
  intros V bs. cbn [seg_split_at str_segment]. unfold str_split_at, bs.
  rewrite <- (boundary_bytes _ V). destruct (split_chars (chars s) n) as [[a b]|] eqn:E.
  - pose proof (split_chars_bytes _ _ _ _ E) as (A & B & C & D). split; [intros _; exists (Str a), (Str b); auto|].
    intros N. exfalso. apply N. now exists a, b.
  - apply split_chars_none in E. split; [tauto|reflexivity].
Qed.

(** ** Equality of texts is equality of bytes. *)
Theorem C73_eq (a b : str) :
  Forall scalar (chars a) -> Forall scalar (chars b) ->
  (seg_eqb a b = true <-> bytes_of (chars a) = bytes_of (chars b)).
Proof.
  intros V W. cbn [seg_eqb str_segment]. unfold str_eqb. rewrite list_eqb_iff. split; [now intros ->|]. now apply bytes_inj.
Qed.

(** ** A measured text moves like the plain one on a boundary, capped at the length, and panics elsewhere. *)
Theorem C73_measured {M} `{Meter M str} (m : M) (s : strref) n :
  Forall scalar (chars (sr_str s)) ->
  let bs := bytes_of (chars (sr_str s)) in
  (is_char_boundary bs (Nat.min (length bs) n) ->
     exists m' s', advance (Measured m s) n = Ret (Measured m' s') /\ bytes_of (chars (sr_str s')) = skipn n bs) /\
  (~ is_char_boundary bs (Nat.min (length bs) n) -> advance (Measured m s) n = Panic).
Proof.
  intros V bs. destruct (mstr_vs_plain m s n) as [A B]. unfold bs. rewrite bytes_length, <- (boundary_bytes _ V).
  split; [|exact B]. intros Q. destruct (A Q) as (m' & s' & E1 & E2). exists m', s'. split; [exact E1|].
  cbn [advance strref_sequence] in E2. unfold strref_advance in E2.
  destruct (split_chars (chars (sr_str s)) n) as [[a b]|] eqn:E; injection E2 as <-; cbn [sr_str chars].
  - now apply split_chars_bytes in E as (_ & E & _).
  - cbn. symmetry. apply skipn_all2. rewrite bytes_length. apply split_chars_none in E.
    destruct (le_lt_dec n (chars_len (chars (sr_str s)))) as [G|G]; [|lia].
    exfalso. apply E. now rewrite Nat.min_r in Q.
Qed.

(** ** [atom] on a text: a comparison of bytes that panics when the shorter length cuts a character of the other. *)
Theorem C73_atom (pat : list char) (s : strref) :
  Forall scalar pat -> Forall scalar (chars (sr_str s)) ->
  let P := bytes_of pat in
  let bs := bytes_of (chars (sr_str s)) in
  (prefix P bs ->
     exists s', parse (atom (Str pat)) s = Ret (Ok tt s') /\ bytes_of (chars (sr_str s')) = skipn (length P) bs) /\
  (~ prefix P bs ->
     let meet := if length P <=? length bs then is_char_boundary bs (length P) else is_char_boundary P (length bs) in
     (meet -> parse (atom (Str pat)) s = Ret (Err (MkMiss tt) s)) /\
     (~ meet -> parse (atom (Str pat)) s = Panic)).
Proof.
  intros V W P bs. destruct (C27_atom_str_exact pat s) as [A B]. unfold P, bs. split.
  - intros Q. apply (bytes_prefix _ _ V W) in Q as [r E]. destruct (A r E) as (s' & E1 & _ & E2).
    exists s'. split; [exact E1|]. rewrite E2, E, bytes_app. now rewrite skipn_app, skipn_all, Nat.sub_diag.
  - intros Q. rewrite <- (bytes_prefix _ _ V W) in Q. destruct (B Q) as [C D]. rewrite !bytes_length.
    destruct (Nat.leb_spec (chars_len pat) (chars_len (chars (sr_str s)))) as [G|G]; cbn zeta.
    + rewrite <- (boundary_bytes _ W). auto.
    + rewrite <- (boundary_bytes _ V). auto.
Qed.

(** "aé€" is one, two and three bytes. *)
Example C73_case :
  bytes_of [97; 233; 8364; 128512]%N = [97; 195; 169; 226; 130; 172; 240; 159; 152; 128]%N /\
  Forall scalar [97; 233; 8364; 128512]%N /\
  ~ is_char_boundary (bytes_of [97; 233]%N) 2 /\ is_char_boundary (bytes_of [97; 233]%N) 1.
Proof.
  split; [reflexivity|]. split; [repeat constructor; unfold scalar; lia|]. split.
  - intros [Q|(b & Q & N)]; [discriminate|]. cbn in Q. injection Q as <-. apply N. split; [now intros|reflexivity].
  - right. exists 195%N. split; [reflexivity|]. intros [_ Q]. discriminate.
Qed.
Example C73_case_atom :
  parse (atom (Str [8364]%N)) (StrRef 1 0 (Str [8364; 233]%N)) = Ret (Ok tt (StrRef 1 3 (Str [233]%N))) /\
  parse (atom (Str [97; 98]%N)) (StrRef 1 0 (Str [8364; 233]%N)) = Panic /\
  parse (atom (Str [97; 98; 99]%N)) (StrRef 1 0 (Str [8364; 233]%N)) = Ret (Err (MkMiss tt) (StrRef 1 0 (Str [8364; 233]%N))).
Proof. repeat split. Qed.

Print Assumptions C73_len.
Print Assumptions C73_boundary.
Print Assumptions C73_advance.
Print Assumptions C73_split_at.
Print Assumptions C73_eq.
Print Assumptions C73_measured.
Print Assumptions C73_atom.
