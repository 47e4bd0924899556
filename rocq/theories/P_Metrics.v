(** * P_Metrics: line/column metering, properties C33-C37. *)
From Verif Require Import L_Metrics L_Resume L_Seq.
Open Scope N_scope.
Open Scope nat_scope.

(** The meter after [text], from the default meter. *)
Notation after EOL text := (linecolumn_advance (EOL := EOL) linecolumnmeter_default (Str text)).

(** A new meter from given metrics, advanced over [text]. *)
Notation resumed EOL start text :=
  (linecolumn_advance (EOL := EOL) (linecolumnmeter_new start) (Str text)).

(** ** C33 *)
Theorem C33_cut_independent {EOL} `{EndOfLine EOL} (m : LineColumnMeter EOL) (pieces : list str) :
  fold_left linecolumn_advance pieces m = linecolumn_advance m (Str (concat (map chars pieces))).
Proof. apply run_pieces. Qed.

Theorem C33_total_count {EOL} `{EndOfLine EOL} (m : LineColumnMeter EOL) (pieces : list str) :
  total_count (metrics (fold_left linecolumn_advance pieces m))
  = total_count (metrics m) + length (concat (map chars pieces)).
Proof. rewrite run_pieces. apply run_total. Qed.

(** So a measured [str] reports the metrics of the text consumed so far, after
    any history of advances, anchors and rewinds. *)
Theorem C33_measured_str {EOL} `{EndOfLine EOL} (s0 : strref) os f :
  flat_run (length (chars (sr_str s0))) (Flat 0 []) os = Some f ->
  exists s ancs,
    drive (fun s n => chars_len (firstn n (chars (sr_str (me_base s)))))
          (into_measured_with (linecolumnmeter_default (EOL := EOL)) s0, []) os = Ret (s, ancs) /\
    metrics (me_meter s) = metrics (after EOL (firstn (fl_pos f) (chars (sr_str s0)))).
Proof.
  intros Hf.
  destruct (mstr_history_exact (linecolumnmeter_default (EOL := EOL)) s0 os linecolumn_compositional Hf)
    as [s [ancs [H1 [_ H2]]]].
  exists s, ancs. split; auto. now rewrite H2.
Qed.

(** ** C34 *)
(** Every text has exactly one division into lines. *)
Theorem C34_lines_exist_unique (t text : list char) :
  t <> [] -> exists ls, lines t text ls /\ forall ls', lines t text ls' -> ls' = ls.
Proof.
  intros Ht. destruct (lines_exist N.eq_dec t text Ht) as [ls Hl]. exists ls. split; auto.
  intros ls' Hl'. exact (lines_unique t text ls' ls Ht Hl' Hl).
Qed.

Theorem C34_lf_lines text ls :
  lines [10%N] text ls ->
  metrics (after LF text) = MkLineColumn (length text) (length ls) (length (last ls [])).
Proof. apply one_char_lines. intros. reflexivity. Qed.

Theorem C34_cr_lines text ls :
  lines [13%N] text ls ->
  metrics (after CR text) = MkLineColumn (length text) (length ls) (length (last ls [])).
Proof. apply one_char_lines. intros. reflexivity. Qed.

(** "ab\n\nc" *)
Example C34_case :
  lines [10%N] [97; 98; 10; 10; 99]%N [[97; 98; 10]; [10]; [99]]%N /\
  metrics (after LF [97; 98; 10; 10; 99]%N) = MkLineColumn 5 3 1.
Proof.
  split; [|reflexivity].
  destruct (C34_lines_exist_unique [10%N] [97; 98; 10; 10; 99]%N ltac:(discriminate)) as [ls [H _]].
  split; [reflexivity|]. exists [[97; 98; 10]; [10]]%N, [[99]]%N. split; [reflexivity|]. split.
  - constructor; [|constructor; [|constructor]].
    + split; [exists [97; 98]%N; reflexivity|].
      intros [|? [|? [|? a]]] c E; try discriminate; cbn in E; injection E; intros; subst; auto; destruct a; discriminate.
    + split; [exists []; reflexivity|].
      intros [|? a] c E; cbn in E; injection E; intros; subst; auto; destruct a; discriminate.
  - right. exists [99]%N. split; auto. split; [discriminate|].
    intros [|? [|? a]] c E; discriminate.
Qed.

(** ** C35 *)
(** Exactly when the claim holds: no CR LF with an even number of CRs is
    followed by more text. *)
Theorem C35_crlf_lines_partial text ls :
  lines [13; 10]%N text ls ->
  (metrics (after CRLF text) = MkLineColumn (length text) (length ls) (length (last ls []))
   <-> ~ even_crlf_inside text).
Proof. apply crlf_exact. Qed.

(** Otherwise lines are missed, never invented. *)
Theorem C35_crlf_never_more_lines text ls :
  lines [13; 10]%N text ls -> line (metrics (after CRLF text)) <= length ls.
Proof. apply crlf_never_more. Qed.

(** "\r\r\na" has two lines, the meter reports one. *)
Theorem C35_crlf_lines_refuted :
  exists text ls, lines [13; 10]%N text ls /\ length ls = 2 /\
    metrics (after CRLF text) = MkLineColumn 4 1 4.
Proof.
  exists [13; 13; 10; 97]%N, [[13; 13; 10]; [97]]%N. split; [|split; reflexivity].
  split; [reflexivity|]. exists [[13; 13; 10]]%N, [[97]]%N. split; [reflexivity|]. split.
  - constructor; [|constructor]. split; [exists [13]%N; reflexivity|].
    intros [|? [|? [|? [|? a]]]] c E; cbn in E; try discriminate. injection E; intros; subst; auto.
  - right. exists [97]%N. split; auto. split; [discriminate|].
    intros [|? [|? a]] c E; discriminate.
Qed.
(** "a\r\nb": the hypothesis of the characterisation is met. *)
Example C35_case :
  ~ even_crlf_inside [97; 13; 10; 98]%N /\ metrics (after CRLF [97; 13; 10; 98]%N) = MkLineColumn 4 2 1.
Proof.
  split; [|reflexivity]. intros [a [b [H [_ [_ He]]]]].
  destruct a as [|? [|? [|? [|? a]]]]; cbn in H; try discriminate; try (injection H as; subst; discriminate).
  injection H as _ _ _ _ H. destruct a; discriminate.
Qed.

(** ** C36 *)
(** Along one text (from any meter) later means greater, and equal order means
    equal metrics. *)
Theorem C36_along_a_text {EOL} `{EndOfLine EOL} (m0 : LineColumnMeter EOL) a b :
  let at_ t := metrics (linecolumn_advance m0 (Str t)) in
  linecolumn_cmp (at_ a) (at_ (a ++ b)) = Ret (if is_nil b then Eq else Lt) /\
  linecolumn_cmp (at_ (a ++ b)) (at_ a) = Ret (if is_nil b then Eq else Gt) /\
  linecolumn_eq (at_ a) (at_ (a ++ b)) = is_nil b.
Proof. apply cmp_along_text. Qed.

Theorem C36_total_preorder :
  (forall x, linecolumn_cmp x x = Ret Eq) /\
  (forall x y, exists o, linecolumn_cmp x y = Ret o /\ linecolumn_cmp y x = Ret (CompOpp o)) /\
  (forall x y z o, linecolumn_cmp x y = Ret o -> linecolumn_cmp y z = Ret o -> linecolumn_cmp x z = Ret o) /\
  (forall x y z o, linecolumn_cmp x y = Ret o -> linecolumn_cmp y z = Ret Eq -> linecolumn_cmp x z = Ret o) /\
  (forall x y, linecolumn_eq x y = true -> linecolumn_cmp x y = Ret Eq).
Proof.
  unfold linecolumn_cmp, linecolumn_partial_cmp. repeat split.
  - intros. now rewrite Nat.compare_refl.
  - intros. eexists. split; [reflexivity|]. f_equal. apply Nat.compare_antisym.
  - intros x y z o H1 H2. injection H1 as H1. injection H2 as H2. f_equal.
    destruct o; rewrite ?Nat.compare_eq_iff, ?Nat.compare_lt_iff, ?Nat.compare_gt_iff in *; lia.
  - intros x y z o H1 H2. injection H1 as H1. injection H2 as H2. f_equal. apply Nat.compare_eq in H2. congruence.
  - intros x y H. unfold linecolumn_eq in H. rewrite !andb_true_iff, !Nat.eqb_eq in H. f_equal. apply Nat.compare_eq_iff. tauto.
Qed.

(** For arbitrary values the order and equality disagree: "ab" and "\nb" give
    metrics that compare equal and are not equal. *)
Theorem C36_arbitrary_refuted :
  exists a b : list char,
    linecolumn_cmp (metrics (after LF a)) (metrics (after LF b)) = Ret Eq /\
    linecolumn_eq (metrics (after LF a)) (metrics (after LF b)) = false.
Proof. exists [97; 98]%N, [10; 98]%N. split; reflexivity. Qed.

(** Exact: equality is equality of all three counts, the order looks at the total count alone. *)
Theorem C36_exact (x y : LineColumn) :
  (linecolumn_eq x y = true <-> x = y) /\
  linecolumn_cmp x y = Ret (total_count x ?= total_count y).
Proof.
  split; [|reflexivity]. unfold linecolumn_eq. rewrite !andb_true_iff, !Nat.eqb_eq. destruct x, y; cbn. split.
  - intros [[] ]; congruence.
  - intros Q. injection Q. auto.
Qed.
Example C36_case :
  linecolumn_eq (metrics (after LF [10; 97]%N)) (metrics (after LF [97; 98]%N)) = false /\
  linecolumn_cmp (metrics (after LF [10; 97]%N)) (metrics (after LF [97; 98; 99]%N)) = Ret Lt.
Proof. split; reflexivity. Qed.

(** ** C37 *)
Lemma lf_next (st : LF) c : eol_next st c = (if N.eqb c 10 then Match else NotMatch, st).
Proof. reflexivity. Qed.
Lemma cr_next (st : CR) c : eol_next st c = (if N.eqb c 13 then Match else NotMatch, st).
Proof. reflexivity. Qed.

(** With LF (CR) the claim holds exactly when nothing follows, nothing
    precedes, or the first text ends its line. *)
Theorem C37_resume_lf_partial a b :
  (metrics (resumed LF (metrics (after LF a)) b) = metrics (after LF (a ++ b))
   <-> b = [] \/ a = [] \/ exists p, a = p ++ [10%N]).
Proof.
  destruct b as [|x b].
  - rewrite app_nil_r. cbn. tauto.
  - rewrite (one_char_resume (EOL := LF) 10%N lf_next) by discriminate. intuition discriminate.
Qed.
Theorem C37_resume_cr_partial a b :
  (metrics (resumed CR (metrics (after CR a)) b) = metrics (after CR (a ++ b))
   <-> b = [] \/ a = [] \/ exists p, a = p ++ [13%N]).
Proof.
  destruct b as [|x b].
  - rewrite app_nil_r. cbn. tauto.
  - rewrite (one_char_resume (EOL := CR) 13%N cr_next) by discriminate. intuition discriminate.
Qed.
(** With CRLF: also when the first text ends in a lone CR which the second text
    completes, provided a later terminator brings the columns together again. *)
Theorem C37_resume_crlf_partial a b :
  (metrics (resumed CRLF (metrics (after CRLF a)) b) = metrics (after CRLF (a ++ b))
   <-> b = [] \/ a = [] \/ (exists p, a = p ++ [10%N] /\ Nat.odd (trailing 13 p) = true) \/
       (Nat.odd (trailing 13 a) = true /\ realigned b)).
Proof. apply crlf_resume_iff. Qed.

(** "a\r" and "\nb\r\nc": cut inside a CR LF, and still right at the end. *)
Example C37_case_crlf :
  metrics (resumed CRLF (metrics (after CRLF [97; 13]%N)) [10; 98; 13; 10; 99]%N) = MkLineColumn 7 3 1 /\
  metrics (after CRLF ([97; 13] ++ [10; 98; 13; 10; 99])%N) = MkLineColumn 7 3 1.
Proof. split; reflexivity. Qed.

(** Resuming inside a line starts a new one, with every convention. *)
Theorem C37_resume_refuted :
  exists a b : list char,
    (metrics (resumed LF (metrics (after LF a)) b) = MkLineColumn 2 2 1 /\
     metrics (after LF (a ++ b)) = MkLineColumn 2 1 2) /\
    (metrics (resumed CR (metrics (after CR a)) b) = MkLineColumn 2 2 1 /\
     metrics (after CR (a ++ b)) = MkLineColumn 2 1 2) /\
    (metrics (resumed CRLF (metrics (after CRLF a)) b) = MkLineColumn 2 2 1 /\
     metrics (after CRLF (a ++ b)) = MkLineColumn 2 1 2).
Proof. exists [97]%N, [98]%N. repeat split; reflexivity. Qed.

Print Assumptions C33_cut_independent.
Print Assumptions C33_total_count.
Print Assumptions C33_measured_str.
Print Assumptions C34_lines_exist_unique.
Print Assumptions C34_lf_lines.
Print Assumptions C34_cr_lines.
Print Assumptions C35_crlf_lines_partial.
Print Assumptions C35_crlf_never_more_lines.
Print Assumptions C35_crlf_lines_refuted.
Print Assumptions C36_along_a_text.
Print Assumptions C36_total_preorder.
Print Assumptions C36_arbitrary_refuted.
Print Assumptions C36_exact.
Print Assumptions C37_resume_lf_partial.
Print Assumptions C37_resume_cr_partial.
Print Assumptions C37_resume_crlf_partial.
Print Assumptions C37_resume_refuted.
