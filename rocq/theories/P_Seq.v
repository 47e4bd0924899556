(** * P_Seq: properties C28-C32 of slices, strings and measured sequences. *)
From Verif Require Import L_Seq.

(** ** C28: slices *)
Theorem C28_slice_advance {T} (s : slice T) :
  (forall a b, sl_data s = a ++ b ->
     exists s', advance s (length a) = Ret s' /\ sl_data s' = b /\ later_slice s s') /\
  (forall n, length (sl_data s) < n -> advance s n = Panic).
Proof. apply slice_advance_exact. Qed.

Theorem C28_slice_advance_additive {T} (s : slice T) n m :
  (s' <- advance s n ;; advance s' m) = advance s (n + m).
Proof. apply slice_advance_add. Qed.

(** Any history of in-range advances can be undone. *)
Theorem C28_slice_rewind_restores {T} (s : slice T) ns :
  list_sum ns <= length (sl_data s) ->
  exists s', advances ns s = Ret s' /\ sl_data s' = skipn (list_sum ns) (sl_data s) /\
        rewind s' (anchor s) = Ret s.
Proof. apply slice_history_exact. Qed.

(** Rewinding to an anchor that lies ahead panics (no silent skip). *)
Theorem C28_slice_rewind_forward_panics {T} (s s' : slice T) ns :
  advances ns s = Ret s' -> 0 < list_sum ns -> rewind s (anchor s') = Panic.
Proof. apply slice_rewind_ahead. Qed.

Theorem C28_slice_is_lawful {T} : lawful_rewind (@later_slice T).
Proof. exact slice_lawful. Qed.

(** For zero-sized items [offset_from] panics: nothing can be rewound. *)
Theorem C28_slice_zero_sized_panics {T} (s anc : slice T) : slice_rewind true s anc = Panic.
Proof. apply slice_zst_panics. Qed.

Example C28_case :
  advances [1; 0; 2] (Slice 7 5 [10; 11; 12; 13]) = Ret (Slice 7 8 [13]) /\
  rewind (Slice 7 8 [13]) (anchor (Slice 7 5 [10; 11; 12; 13])) = Ret (Slice 7 5 [10; 11; 12; 13]) /\
  rewind (Slice 7 5 [10; 11; 12; 13]) (anchor (Slice 7 8 [13])) = Panic.
Proof. repeat split. Qed.

(** ** C29: strings *)
Theorem C29_str_advance (s : strref) :
  (forall a b, chars (sr_str s) = a ++ b ->
     exists s', advance s (chars_len a) = Ret s' /\ chars (sr_str s') = b /\ later_str s s') /\
  (forall n, chars_len (chars (sr_str s)) < n ->
     exists s', advance s n = Ret s' /\ chars (sr_str s') = []) /\
  (forall n, ~ boundary (chars (sr_str s)) n ->
     exists s', advance s n = Ret s' /\ chars (sr_str s') = []) /\
  (forall n, exists s' a, advance s n = Ret s' /\ chars (sr_str s) = a ++ chars (sr_str s')).
Proof. apply str_advance_exact. Qed.

Theorem C29_str_advance_additive (s : strref) n m :
  boundary (chars (sr_str s)) n -> (s' <- advance s n ;; advance s' m) = advance s (n + m).
Proof. apply strref_advance_add. Qed.

(** "aé€": 1, 2 and 3 bytes. *)
Definition sample : strref := StrRef 3 10 (Str [97; 233; 8364]%N).
Example C29_case :
  advance sample 1 = Ret (StrRef 3 11 (Str [233; 8364]%N)) /\
  advance sample 3 = Ret (StrRef 3 13 (Str [8364]%N)) /\
  advance sample 2 = Ret static_empty /\ advance sample 7 = Ret static_empty /\
  boundary (chars (sr_str sample)) 3 /\ ~ boundary (chars (sr_str sample)) 2.
Proof.
  repeat split; auto.
  - exists [97; 233]%N, [8364]%N. auto.
  - apply split_chars_none. reflexivity.
Qed.

(** ** C30: strings can be rewound exactly when no advance left the text *)
Theorem C30_str_rewind_iff (s s' : strref) ns :
  sr_alloc s <> sr_alloc static_empty -> advances ns s = Ret s' ->
  (rewind s' (anchor s) = Ret s <-> hits_boundaries (chars (sr_str s)) ns).
Proof. apply strref_rewind_history_iff. Qed.

Theorem C30_str_is_lawful_partial : lawful_rewind later_str.
Proof. exact str_lawful. Qed.

(** Refuted past the end: [anchor; advance(100); rewind] does not come back. *)
Theorem C30_str_rewind_past_end_refuted :
  exists (s s' : strref) n, advance s n = Ret s' /\ sr_alloc s <> sr_alloc static_empty /\
    rewind s' (anchor s) = UB.
Proof. exact (ex_intro _ sample (ex_intro _ static_empty (ex_intro _ 100 str_rewind_past_end))). Qed.

Example C30_case : hits_boundaries (chars (sr_str sample)) [1; 2; 3].
Proof.
  exists [97]%N, [233; 8364]%N. repeat split. exists [233]%N, [8364]%N. repeat split.
  exists [8364]%N, (@nil N). repeat split.
Qed.

(** ** C31: measured sequences *)
(** After any history of in-range advances, anchors and rewinds the measured
    slice is at the position a flat machine predicts, its items are the rest of
    the original, and its meter is the initial one advanced over exactly the
    consumed prefix. *)
Theorem C31_measured_slice {T M} `{Meter M (list T)} (m0 : M) (s0 : slice T) os f :
  compositional (fun m (x : list T) => meter_advance m x) ->
  flat_run (length (sl_data s0)) (Flat 0 []) os = Some f ->
  exists s ancs,
    drive (fun _ n => n) (into_measured_with m0 s0, []) os = Ret (s, ancs) /\
    concat (segments s) = skipn (fl_pos f) (sl_data s0) /\
    me_base s = Slice (sl_alloc s0) (sl_off s0 + fl_pos f) (skipn (fl_pos f) (sl_data s0)) /\
    me_meter s = meter_advance m0 (firstn (fl_pos f) (sl_data s0)).
Proof. apply mslice_history_exact. Qed.

Theorem C31_measured_str {M} `{Meter M str} (m0 : M) (s0 : strref) os f :
  compositional (fun m (x : list char) => meter_advance m (Str x)) ->
  flat_run (length (chars (sr_str s0))) (Flat 0 []) os = Some f ->
  exists s ancs,
    drive (fun s n => chars_len (firstn n (chars (sr_str (me_base s)))))
          (into_measured_with m0 s0, []) os = Ret (s, ancs) /\
    map chars (segments s) = [skipn (fl_pos f) (chars (sr_str s0))] /\
    me_meter s = meter_advance m0 (Str (firstn (fl_pos f) (chars (sr_str s0)))).
Proof. apply mstr_history_exact. Qed.

(** In range the base moves exactly as the plain slice; out of range both panic. *)
Theorem C31_measured_slice_vs_plain {T M} `{Meter M (list T)} (m : M) (s : slice T) n :
  match advance s n with
  | Ret s' => exists m', advance (Measured m s) n = Ret (Measured m' s')
  | _ => advance (Measured m s) n = Panic
  end.
Proof. apply mslice_vs_plain. Qed.

(** The [usize] meter is compositional. *)
Example C31_usize_compositional :
  compositional (fun (m : nat) (x : list nat) => meter_advance m x).
Proof.
  split; intros; unfold meter_advance, usize_meter; [cbn; lia|rewrite app_length; lia].
Qed.
(** So with [usize] as the meter of a slice, any history leaves the start plus the position. *)
Theorem C31_usize_counts {T} (m0 : nat) (s0 : slice T) os f :
  flat_run (length (sl_data s0)) (Flat 0 []) os = Some f ->
  exists s ancs,
    drive (fun _ n => n) (into_measured_with m0 s0, []) os = Ret (s, ancs) /\ me_meter s = m0 + fl_pos f.
Proof.
  intros R.
  assert (HM : compositional (fun (m : nat) (x : list T) => meter_advance m x))
    by (split; intros; unfold meter_advance, usize_meter; [cbn; lia|rewrite app_length; lia]).
  destruct (mslice_history_exact m0 s0 os HM R) as (s & ancs & A & _ & B & C).
  exists s, ancs. split; [exact A|]. rewrite C. unfold meter_advance, usize_meter. rewrite firstn_length_le; [reflexivity|].
  apply (flat_run_within os (Flat 0 [])); [apply Nat.le_0_l|constructor|exact R].
Qed.

Example C31_case :
  flat_run 4 (Flat 0 []) [MAdvance 1; MAnchor; MAdvance 2; MRewind 0; MAdvance 1] = Some (Flat 2 [1]) /\
  drive (fun _ n => n) (into_measured_with 0 (Slice 1 0 [5; 6; 7; 8]), [])
    [MAdvance 1; MAnchor; MAdvance 2; MRewind 0; MAdvance 1]
  = Ret (Measured 2 (Slice 1 2 [7; 8]), [Measured 1 (Slice 1 1 [6; 7; 8])]).
Proof. repeat split. Qed.

(** ** C32: measured str against plain str *)
(** Exact: it agrees with the plain str iff the byte count, capped at the
    length, is a character boundary, and panics otherwise. *)
Theorem C32_measured_str_exact {M} `{Meter M str} (m : M) (s : strref) n :
  (boundary (chars (sr_str s)) (Nat.min (chars_len (chars (sr_str s))) n) ->
   exists m' s', advance (Measured m s) n = Ret (Measured m' s') /\ advance s n = Ret s') /\
  (~ boundary (chars (sr_str s)) (Nat.min (chars_len (chars (sr_str s))) n) ->
   advance (Measured m s) n = Panic).
Proof. apply mstr_vs_plain. Qed.

(** Refuted inside a character: the plain str gives the empty string, the
    measured one panics. *)
Theorem C32_measured_str_refuted {M} `{Meter M str} (m : M) :
  exists (s s' : strref) n, advance s n = Ret s' /\ advance (Measured m s) n = Panic.
Proof. exact (ex_intro _ sample (ex_intro _ static_empty (ex_intro _ 2 (conj eq_refl eq_refl)))). Qed.

Print Assumptions C28_slice_advance.
Print Assumptions C28_slice_advance_additive.
Print Assumptions C28_slice_rewind_restores.
Print Assumptions C28_slice_rewind_forward_panics.
Print Assumptions C28_slice_is_lawful.
Print Assumptions C28_slice_zero_sized_panics.
Print Assumptions C29_str_advance.
Print Assumptions C29_str_advance_additive.
Print Assumptions C30_str_rewind_iff.
Print Assumptions C30_str_is_lawful_partial.
Print Assumptions C30_str_rewind_past_end_refuted.
Print Assumptions C31_measured_slice.
Print Assumptions C31_measured_str.
Print Assumptions C31_measured_slice_vs_plain.
Print Assumptions C31_usize_counts.
Print Assumptions C32_measured_str_exact.
Print Assumptions C32_measured_str_refuted.
