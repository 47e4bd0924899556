(** * M_Metrics: crates/parcom-metrics/src (end_of_line.rs, line_colmn.rs).
    Model only; no proofs.  Simplification: the counters are unbounded ([usize]
    overflow would need more than 2^64 characters). *)
From Verif Require Export M_Base M_Seq.

Set Implicit Arguments.

(** end_of_line.rs:1-6 *)
Inductive EndOfLineMatch := NotMatch | PartialMatch | Match.

(** end_of_line.rs:8-10 *)
Class EndOfLine (EOL : Type) : Type := {
  eol_default : EOL;
  eol_next : EOL -> char -> EndOfLineMatch * EOL
}.

Definition chr_lf : char := 10%N.
Definition chr_cr : char := 13%N.

(** end_of_line.rs:12-22 *)
Inductive LF := MkLF.
#[export] Instance lf_end_of_line : EndOfLine LF := {
  eol_default := MkLF;
  eol_next self c := (if N.eqb c chr_lf then Match else NotMatch, self)
}.

(** end_of_line.rs:24-34 *)
Inductive CR := MkCR.
#[export] Instance cr_end_of_line : EndOfLine CR := {
  eol_default := MkCR;
  eol_next self c := (if N.eqb c chr_cr then Match else NotMatch, self)
}.

(** end_of_line.rs:36-41 *)
Inductive CRLFState := StInitial | StCR.
(** end_of_line.rs:43-46 *)
Record CRLF := MkCRLF { crlf_state : CRLFState }.
(** end_of_line.rs:48-67 *)
#[export] Instance crlf_end_of_line : EndOfLine CRLF := {
  eol_default := MkCRLF StInitial;
  eol_next self c :=
    match crlf_state self with
    | StInitial => if N.eqb c chr_cr then (PartialMatch, MkCRLF StCR) else (NotMatch, self)
    | StCR => (if N.eqb c chr_lf then Match else NotMatch, MkCRLF StInitial)
    end
}.

(** line_colmn.rs:5-11 *)
Record LineColumn : Type := MkLineColumn { total_count : nat; line : nat; column : nat }.

(** line_colmn.rs:13-22 *)
Definition linecolumn_default : LineColumn := MkLineColumn 0 0 0.

(** line_colmn.rs:36-42 *)
Definition linecolumn_eq (self other : LineColumn) : bool :=
  Nat.eqb (total_count self) (total_count other)
  && Nat.eqb (line self) (line other)
  && Nat.eqb (column self) (column other).

(** line_colmn.rs:49-53 *)
Definition linecolumn_partial_cmp (self other : LineColumn) : option comparison :=
  Some (Nat.compare (total_count self) (total_count other)).

(** line_colmn.rs:44-48; [unwrap] *)
Definition linecolumn_cmp (self other : LineColumn) : comp comparison :=
  match linecolumn_partial_cmp self other with Some o => Ret o | None => Panic end.

(** line_colmn.rs:59-65 *)
Record LineColumnMeter (EOL : Type) : Type := MkMeter {
  location_ : LineColumn;
  next_is_new_line : bool;
  state : EOL
}.
Arguments MkMeter {EOL} _ _ _.

Section Meter.
  Context {EOL : Type} {EE : EndOfLine EOL}.

  (** line_colmn.rs:69-71 *)
  Definition metrics (self : LineColumnMeter EOL) : LineColumn := location_ self.

  (** The body of the loop of line_colmn.rs:74-86. *)
  Definition meter_step (self : LineColumnMeter EOL) (c : char) : LineColumnMeter EOL :=
    let loc := location_ self in
    let loc := if next_is_new_line self
               then MkLineColumn (total_count loc) (line loc + 1) 0 else loc in
    let flag := if next_is_new_line self then false else next_is_new_line self in
    let loc := MkLineColumn (total_count loc + 1) (line loc) (column loc + 1) in
    let '(m, st) := eol_next (state self) c in
    let flag := match m with Match => true | _ => flag end in
    MkMeter loc flag st.

  (** line_colmn.rs:73-89 *)
  Definition linecolumn_advance (self : LineColumnMeter EOL) (segment : str) : LineColumnMeter EOL :=
    fold_left meter_step (chars segment) self.
  #[export] Instance linecolumn_meter : Meter (LineColumnMeter EOL) str := linecolumn_advance.

  (** line_colmn.rs:92-100 *)
  Definition linecolumnmeter_new (start : LineColumn) : LineColumnMeter EOL :=
    MkMeter start true eol_default.

  (** line_colmn.rs:102-110 *)
  Definition linecolumnmeter_default : LineColumnMeter EOL :=
    MkMeter linecolumn_default true eol_default.
End Meter.
