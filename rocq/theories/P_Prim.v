(** * P_Prim: properties C23-C27 of the primitive parsers. *)
From Verif Require Import L_Prim.

(** ** C23 *)
Theorem C23_any_item {S T} `{Sequence S (list T)} (s : S) :
  lawful_items (S := S) (T := T) ->
  match content s with
  | [] => parse any_item s = Ret (Err (MkMiss tt) s)
  | x :: rest => exists s', parse any_item s = Ret (Ok x s') /\ content s' = rest
  end.
Proof. intros LS. exact (any_item_spec LS s). Qed.

Theorem C23_any_char {S} `{Sequence S str} (s : S) :
  lawful_text (S := S) ->
  match text s with
  | [] => parse any_char s = Ret (Err (MkMiss tt) s)
  | c :: rest => exists s', parse any_char s = Ret (Ok c s') /\ text s' = rest
  end.
Proof. intros LS. exact (any_char_spec LS s). Qed.

(** Every segmentation of every list is such a sequence, and so are slices and strs. *)
Theorem C23_segmentations_are_lawful {T} : lawful_items (S := chunked T) (T := T).
Proof. exact chunked_lawful. Qed.
Theorem C23_slices_are_lawful {T} : lawful_items (S := slice T) (T := T).
Proof. exact slice_lawful_items. Qed.
Theorem C23_strs_are_lawful : lawful_text (S := strref).
Proof. exact str_lawful_text. Qed.

Example C23_case :
  exists s', parse any_item (Chunked [[]; [5]; []; [6; 7]]) = Ret (Ok 5 s') /\ content s' = [6; 7].
Proof. eexists. split; reflexivity. Qed.
Example C23_case_str :
  parse any_char (StrRef 3 10 (Str [233; 97]%N)) = Ret (Ok 233%N (StrRef 3 12 (Str [97]%N))).
Proof. reflexivity. Qed.

(** ** C24 *)
Theorem C24_the_item {S T} `{Sequence S (list T)} (eqb : T -> T -> bool) (x : T) (s : S) :
  lawful_items (S := S) (T := T) -> decides_eq eqb ->
  (forall rest, content s = x :: rest ->
     exists s', parse (the_item eqb x) s = Ret (Ok tt s') /\ content s' = rest) /\
  ((forall rest, content s <> x :: rest) -> parse (the_item eqb x) s = Ret (Err (MkMiss tt) s)).
Proof. intros LS HE. exact (the_item_spec LS HE x s). Qed.

Theorem C24_the_char {S} `{Sequence S str} (c : char) (s : S) :
  lawful_text (S := S) ->
  (forall rest, text s = c :: rest ->
     exists s', parse (the_char c) s = Ret (Ok tt s') /\ text s' = rest) /\
  ((forall rest, text s <> c :: rest) -> parse (the_char c) s = Ret (Err (MkMiss tt) s)).
Proof. intros LS. exact (the_char_spec LS c s). Qed.

Example C24_nat_eqb : decides_eq Nat.eqb.
Proof. intros x y. apply Nat.eqb_eq. Qed.
Example C24_case :
  content (Chunked [[]; [5]; [6; 7]]) = 5 :: [6; 7] /\
  parse (the_item Nat.eqb 6) (Chunked [[]; [5]; [6; 7]])
  = Ret (Err (MkMiss tt) (Chunked [[]; [5]; [6; 7]])).
Proof. auto. Qed.

(** ** C25 *)
Theorem C25_atom_decides_prefix {S T} `{Sequence S (list T)} (eqb : T -> T -> bool)
  (pat : list T) (s : S) :
  lawful_items (S := S) (T := T) -> decides_eq eqb ->
  let matches := prefix pat (content s) /\ (pat = [] -> segments s <> []) in
  let SG := list_segment eqb in
  (matches -> exists s', parse (atom pat) s = Ret (Ok tt s')) /\
  (~ matches -> parse (atom pat) s = Ret (Err (MkMiss tt) s)).
Proof. intros LS HE. exact (atom_decides LS HE pat s). Qed.

Example C25_case :
  prefix [5; 6] (content (Chunked [[]; [5]; []; [6; 7]])) /\
  ~ prefix [5; 7] (content (Chunked [[]; [5]; []; [6; 7]])).
Proof. split; [now exists [7]|]. intros [r Hr]. cbn in Hr. discriminate. Qed.

(** ** C26 *)
(** Exact: what is dropped is the number of items the pattern has in the last
    segment it reaches into, not the length of the pattern. *)
Theorem C26_atom_consumption_exact {S T} `{Sequence S (list T)} (eqb : T -> T -> bool)
  (pat : list T) (s s' : S) :
  lawful_items (S := S) (T := T) -> decides_eq eqb ->
  let SG := list_segment eqb in
  parse (atom pat) s = Ret (Ok tt s') ->
  exists before seg after,
    segments s = before ++ seg :: after /\ ends_in (length pat) before seg /\
    content s' = skipn (length pat - length (concat before)) (content s).
Proof. intros LS HE. exact (@atom_consumption _ _ _ LS _ HE pat s s'). Qed.

(** So the claim holds when the first segment covers the pattern ... *)
Theorem C26_atom_consumes_pattern_partial {S T} `{Sequence S (list T)} (eqb : T -> T -> bool)
  (pat : list T) (s s' : S) seg rest :
  lawful_items (S := S) (T := T) -> decides_eq eqb ->
  let SG := list_segment eqb in
  segments s = seg :: rest -> length pat <= length seg ->
  parse (atom pat) s = Ret (Ok tt s') -> content s = pat ++ content s'.
Proof. intros LS HE. exact (@atom_first_segment _ _ _ LS _ HE pat s s' seg rest). Qed.

(** ... and fails for a lawful sequence cut inside the pattern. *)
Theorem C26_atom_consumes_pattern_refuted :
  let SG := list_segment Nat.eqb in
  lawful_items (S := chunked nat) (T := nat) /\ decides_eq Nat.eqb /\
  exists (pat : list nat) (s s' : chunked nat),
    parse (atom pat) s = Ret (Ok tt s') /\ content s <> pat ++ content s'.
Proof. exact atom_consumption_refuted. Qed.

Example C26_case :
  let SG := list_segment Nat.eqb in
  parse (atom [1; 2; 3]) (Chunked [[1; 2]; [3; 4]]) = Ret (Ok tt (Chunked [[2]; [3; 4]])) /\
  parse (atom [1; 2; 3]) (Chunked [[1; 2; 3; 4]]) = Ret (Ok tt (Chunked [[4]])).
Proof. repeat split. Qed.

(** ** C27 *)
(** Exact: on a [&str] the parser panics iff the pattern is not a prefix and
    the shorter byte length is not a boundary of the longer text. *)
Theorem C27_atom_str_exact (pat : list char) (s : strref) :
  let t := chars (sr_str s) in
  (forall rest, t = pat ++ rest ->
     exists s', parse (atom (Str pat)) s = Ret (Ok tt s') /\ later_str s s' /\ chars (sr_str s') = rest) /\
  (~ prefix pat t ->
     (chars_len pat <= chars_len t ->
        (boundary t (chars_len pat) -> parse (atom (Str pat)) s = Ret (Err (MkMiss tt) s)) /\
        (~ boundary t (chars_len pat) -> parse (atom (Str pat)) s = Panic)) /\
     (chars_len t < chars_len pat ->
        (boundary pat (chars_len t) -> parse (atom (Str pat)) s = Ret (Err (MkMiss tt) s)) /\
        (~ boundary pat (chars_len t) -> parse (atom (Str pat)) s = Panic))).
Proof. exact (atom_strref_exact pat s). Qed.

(** Texts of one-byte characters never panic. *)
Theorem C27_atom_ascii_partial (pat : list char) (s : strref) :
  Forall (fun c => (c < 128)%N) pat -> Forall (fun c => (c < 128)%N) (chars (sr_str s)) ->
  exists r, parse (atom (Str pat)) s = Ret r.
Proof. apply atom_ascii. Qed.

(** Any segmentation of text: a success means a prefix, and a prefix is found. *)
Theorem C27_atom_text_success {S} `{Sequence S str} (pat : list char) (s : S) :
  lawful_text (S := S) ->
  (forall s', parse (atom (Str pat)) s = Ret (Ok tt s') -> prefix pat (text s)) /\
  (prefix pat (text s) -> segments s <> [] ->
   exists n, parse (atom (Str pat)) s = (r <- advance s n ;; Ret (Ok tt r))).
Proof. intros LS. apply atom_text_success. Qed.

Theorem C27_atom_str_never_panics_refuted :
  exists (pat : list char) (s : strref), parse (atom (Str pat)) s = Panic.
Proof. exact (ex_intro _ [97]%N (ex_intro _ (StrRef 1 0 (Str [233]%N)) eq_refl)). Qed.

Example C27_case :
  parse (atom (Str [97; 98]%N)) (StrRef 1 0 (Str [97; 98; 233]%N))
  = Ret (Ok tt (StrRef 1 2 (Str [233]%N))).
Proof. reflexivity. Qed.

Print Assumptions C23_any_item.
Print Assumptions C23_any_char.
Print Assumptions C23_segmentations_are_lawful.
Print Assumptions C23_slices_are_lawful.
Print Assumptions C23_strs_are_lawful.
Print Assumptions C24_the_item.
Print Assumptions C24_the_char.
Print Assumptions C25_atom_decides_prefix.
Print Assumptions C26_atom_consumption_exact.
Print Assumptions C26_atom_consumes_pattern_partial.
Print Assumptions C26_atom_consumes_pattern_refuted.
Print Assumptions C27_atom_str_exact.
Print Assumptions C27_atom_ascii_partial.
Print Assumptions C27_atom_text_success.
Print Assumptions C27_atom_str_never_panics_refuted.
