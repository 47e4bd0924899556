(** * P_StdLines: the meter and [str::lines], property C90.
    The unit tests of line_colmn.rs compare the LF meter with [str::len] and
    [str::lines] on ten texts; here on every text. *)
From Verif Require Import L_Metrics S_StdLines L_StdLines.

Notation after text := (linecolumn_advance (EOL := LF) linecolumnmeter_default (Str text)).

Lemma lf_next (st : LF) c : eol_next st c = (if N.eqb c 10 then Match else NotMatch, st).
Proof. reflexivity. Qed.

(** The number of lines is that of [str::lines], for every text. *)
Theorem C90_lines text ls : std_lines text ls -> line (metrics (after text)) = length ls.
Proof.
  intros (whole & W & F). rewrite (one_char_lines (EOL := LF) 10%N lf_next text whole W).
  cbn. clear W. induction F; cbn; auto.
Qed.

(** The total count is [str::len] exactly for ASCII texts. *)
Theorem C90_total_partial text : total_count (metrics (after text)) = byte_len text <-> ascii text.
Proof.
  rewrite <- byte_len_ascii, run_total. split; intros E; symmetry; exact E.
Qed.

(** The column is the one of the tests exactly if the last line is ASCII. *)
Theorem C90_column_partial text ls k : std_lines text ls -> ends_with text k ->
  (column (metrics (after text)) = expected_column ls k <-> ascii (last ls [])).
Proof.
  intros (whole & W & F) En. rewrite (one_char_lines (EOL := LF) 10%N lf_next text whole W).
  cbn [column]. destruct text as [|c text].
  - assert (whole = []) as ->.
    { apply (lines_unique [10%N] [] whole [] ltac:(discriminate) W). split; [reflexivity|]. exists [], []. auto. }
    inversion F; subst. cbn. split; constructor.
  - assert (c :: text <> []) as N by discriminate.
    destruct (last_line _ _ W N) as [Nw _]. pose proof (forall2_last stripped _ _ [] [] F Nw) as St.
    destruct (last_line_ends _ _ _ _ W N St En) as [L _]. unfold char in *. rewrite L, <- byte_len_ascii.
    destruct ls as [|l ls]; [inversion F; now subst|]. unfold expected_column. lia.
Qed.

(** So on an ASCII text the meter is what the tests say. *)
Theorem C90_ascii text ls k : ascii text -> std_lines text ls -> ends_with text k ->
  metrics (after text) = MkLineColumn (byte_len text) (length ls) (expected_column ls k).
Proof.
  intros As Sl En. pose proof (C90_lines text ls Sl) as L. pose proof (proj2 (C90_total_partial text) As) as T.
  assert (ascii (last ls [])) as Al.
  { destruct Sl as (whole & W & F). destruct text as [|c text].
    - assert (whole = []) as ->.
      { apply (lines_unique [10%N] [] whole [] ltac:(discriminate) W). split; [reflexivity|]. exists [], []. auto. }
      inversion F; constructor.
    - destruct (last_line _ _ W ltac:(discriminate)) as [Nw [a E]].
      pose proof (forall2_last stripped _ _ [] [] F Nw) as St.
      unfold ascii in As. rewrite E, Forall_app in As. destruct As as [_ As].
      destruct St as [y|y _|y _]; [apply Forall_app in As; apply As|apply Forall_app in As; apply As|exact As]. }
  pose proof (proj2 (C90_column_partial text ls k Sl En) Al) as C.
  destruct (metrics (after text)). cbn in *. congruence.
Qed.

(** Every text has its lines, one end and one list of lines. *)
Theorem C90_lines_exist_unique text :
  (exists ls, std_lines text ls /\ forall ls', std_lines text ls' -> ls' = ls) /\
  (exists k, ends_with text k).
Proof.
  split.
  - destruct (std_lines_exist text) as [ls L]. exists ls. split; auto. intros ls' L'. now apply (std_lines_unique text).
  - destruct (snoc_case text) as [->|(b & x & ->)]; [exists 0; apply ew_none; intros [|? ?]; discriminate|].
    destruct (N.eq_dec x 10) as [->|Nx].
    + destruct (snoc_case b) as [->|(b' & y & ->)].
      * exists 1. apply (ew_lf []). intros [|? ?]; discriminate.
      * destruct (N.eq_dec y 13) as [->|Ny].
        -- exists 2. rewrite <- app_assoc. apply ew_crlf.
        -- exists 1. apply ew_lf. intros b'' E. apply app_inj_tail in E. now destruct E.
    + exists 0. apply ew_none. intros b' E. apply app_inj_tail in E. now destruct E.
Qed.

(** The claim of the tests for every text is false: on "é" [str::len] is 2, the meter says 1. *)
Theorem C90_every_text_refuted : exists text ls k, std_lines text ls /\ ends_with text k /\
  line (metrics (after text)) = length ls /\
  total_count (metrics (after text)) < byte_len text /\
  column (metrics (after text)) < expected_column ls k.
Proof.
  exists [233%N], [[233%N]], 0.
  assert (forall b : list N, [233%N] <> b ++ [10%N]) as Nt.
  { intros [|? [|? ?]]; discriminate. }
  split; [|split; [|split; [|split]]]; cbn; try lia.
  - exists [[233%N]]. split; [|repeat constructor; auto]. split; [reflexivity|].
    exists [], [[233%N]]. repeat split; auto. right. exists [233%N]. split; auto. split; [discriminate|].
    intros [|? [|? ?]] c E; discriminate.
  - now apply ew_none.
Qed.

(** The meter never counts more than the tests would. *)
Theorem C90_never_more text ls k : std_lines text ls -> ends_with text k ->
  total_count (metrics (after text)) <= byte_len text /\
  column (metrics (after text)) <= expected_column ls k.
Proof.
  intros (whole & W & F) En. rewrite (one_char_lines (EOL := LF) 10%N lf_next text whole W).
  cbn [column total_count]. split; [apply byte_len_ge|]. destruct text as [|c text].
  - assert (whole = []) as ->.
    { apply (lines_unique [10%N] [] whole [] ltac:(discriminate) W). split; [reflexivity|]. exists [], []. auto. }
    cbn. lia.
  - assert (c :: text <> []) as N by discriminate.
    destruct (last_line _ _ W N) as [Nw _]. pose proof (forall2_last stripped _ _ [] [] F Nw) as St.
    destruct (last_line_ends _ _ _ _ W N St En) as [L _]. unfold char in *. rewrite L.
    destruct ls as [|l ls]; [inversion F; now subst|]. unfold expected_column.
    pose proof (byte_len_ge (last (l :: ls) [])). lia.
Qed.

(** The last text of each test: "line0\n\r\rline3\r\nline4", and with "\n" and "\r\n" behind it
    (the second and third tests have LF instead of CR LF after "line3"). *)
Definition case_text : list N :=
  [108; 105; 110; 101; 48; 10; 13; 13; 108; 105; 110; 101; 51; 13; 10; 108; 105; 110; 101; 52]%N.
Example C90_case_none : metrics (after case_text) = MkLineColumn 20 3 5 /\ byte_len case_text = 20.
Proof. split; reflexivity. Qed.
Example C90_case_lf : metrics (after (case_text ++ [10%N])) = MkLineColumn 21 3 6.
Proof. reflexivity. Qed.
Example C90_case_crlf : metrics (after (case_text ++ [13; 10]%N)) = MkLineColumn 22 3 7.
Proof. reflexivity. Qed.
(** "a\r\n\r": one stripped line, and an open one that keeps its CR. *)
Example C90_case : std_lines [97; 13; 10; 13]%N [[97]; [13]]%N /\ ends_with [97; 13; 10; 13]%N 0 /\ ascii [97; 13; 10; 13]%N /\
  metrics (after [97; 13; 10; 13]%N) = MkLineColumn 4 2 1.
Proof.
  split; [|split; [|split; [repeat constructor|reflexivity]]].
  - exists [[97; 13; 10]; [13]]%N. split.
    + split; [reflexivity|]. exists [[97; 13; 10]]%N, [[13]]%N. split; [reflexivity|]. split.
      * constructor; [|constructor]. split; [exists [97; 13]%N; reflexivity|].
        intros [|? [|? [|? a]]] c E; try discriminate; cbn in E; injection E; intros; subst; auto; destruct a; discriminate.
      * right. exists [13%N]. split; auto. split; [discriminate|]. intros [|? [|? a]] c E; discriminate.
    + constructor; [apply (st_crlf [97%N])|]. constructor; [|constructor]. apply st_open. intros [|? [|? ?]]; discriminate.
  - apply ew_none. intros [|? [|? [|? [|? [|? b]]]]] E; discriminate.
Qed.

Print Assumptions C90_lines.
Print Assumptions C90_total_partial.
Print Assumptions C90_column_partial.
Print Assumptions C90_ascii.
Print Assumptions C90_lines_exist_unique.
Print Assumptions C90_every_text_refuted.
Print Assumptions C90_never_more.
