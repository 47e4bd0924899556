(** * M_Utf8: [str::from_utf8] and
    crates/parcom-sequence-sources/src/utf8_validator.rs.  Model only; no proofs. *)
From Verif Require Export M_Writer M_GenSeq.

Set Implicit Arguments.

(** [u8] *)
Definition byte := N.

Definition in_range (lo hi b : N) : bool := ((lo <=? b) && (b <=? hi))%N.
Definition cont (b : byte) : bool := in_range 0x80 0xBF b.

(** Well-formed byte sequences (Unicode, table 3-7), which is what the standard
    library checks. *)
Definition wf1 (b0 : byte) : bool := in_range 0 0x7F b0.
Definition wf2 (b0 b1 : byte) : bool := in_range 0xC2 0xDF b0 && cont b1.
Definition wf3 (b0 b1 b2 : byte) : bool :=
  ((b0 =? 0xE0)%N && in_range 0xA0 0xBF b1
   || in_range 0xE1 0xEC b0 && cont b1
   || (b0 =? 0xED)%N && in_range 0x80 0x9F b1
   || in_range 0xEE 0xEF b0 && cont b1) && cont b2.
Definition wf4 (b0 b1 b2 b3 : byte) : bool :=
  ((b0 =? 0xF0)%N && in_range 0x90 0xBF b1
   || in_range 0xF1 0xF3 b0 && cont b1
   || (b0 =? 0xF4)%N && in_range 0x80 0x8F b1) && cont b2 && cont b3.

(** [Utf8Error::valid_up_to], or the length when there is no error: the bytes
    of the characters before the first position where none is complete. *)
Fixpoint valid_up_to (l : list byte) : nat :=
  match l with
  | [] => 0
  | b0 :: l1 =>
      if wf1 b0 then 1 + valid_up_to l1 else
      match l1 with
      | [] => 0
      | b1 :: l2 =>
          if wf2 b0 b1 then 2 + valid_up_to l2 else
          match l2 with
          | [] => 0
          | b2 :: l3 =>
              if wf3 b0 b1 b2 then 3 + valid_up_to l3 else
              match l3 with
              | [] => 0
              | b3 :: l4 => if wf4 b0 b1 b2 b3 then 4 + valid_up_to l4 else 0
              end
          end
      end
  end.

(** utf8_validator.rs:25-28 *)
Inductive uerror (E : Type) := InvalidSequence | Inner (e : E).
Arguments InvalidSequence {E}. Arguments Inner {E}.

(** utf8_validator.rs:9-13, with the source's state. *)
Record validator (G : Type) := Validator { buffered : nat; rest : list byte; vsource : G }.
(** utf8_validator.rs:16-22 *)
Definition validator_new {G} (g : G) : validator G := Validator 0 [0; 0; 0]%N g.

(** utf8_validator.rs:153-160 *)
Record uwriter (W : Type) := UWriter { uw_buffered : nat; uw_req : W }.
(** utf8_validator.rs:245-260 *)
Inductive iresponse (R : Type) :=
| IAdvance (buffered : nat) (rest : list byte) (res : R)
| IFinish (res : R)
| IErr (res : R).
Arguments IAdvance {R}. Arguments IFinish {R}. Arguments IErr {R}.

Section Validator.
  Context {C W E R : Type} (K : control C W byte (uerror E) R).
  Let B := ct_writer K.

  (** utf8_validator.rs:193-224 [Writer::advance] *)
  Definition u_advance (w : uwriter W) : comp (iresponse R) :=
    buf <- as_slice B (uw_req w) ;;
    let valid_len := valid_up_to buf in
    let invalids := skipn valid_len buf in
    if 3 <? length invalids then
      res <- bw_cancel B (uw_req w) InvalidSequence ;; Ret (IErr res)
    else
      let rest := invalids ++ repeat 0%N (3 - length invalids) in
      req <- shrink_to B (uw_req w) valid_len ;;
      res <- bw_advance B req ;;
      Ret (IAdvance (length invalids) rest res).

  (** utf8_validator.rs:163-234 [Writer] *)
  Definition uwriter_ops : bwriter (uwriter W) byte E (iresponse R) := {|
    bw_capacity := fun w => n <- bw_capacity B (uw_req w) ;; usub n (uw_buffered w);    (* 173-175 *)
    bw_len := fun w => n <- bw_len B (uw_req w) ;; usub n (uw_buffered w);              (* 177-179 *)
    bw_read := fun w i => bw_read B (uw_req w) (uw_buffered w + i);                     (* 181-183 *)
    bw_write := fun w i x =>                                                            (* 185-187 *)
      r <- bw_write B (uw_req w) (uw_buffered w + i) x ;; Ret (UWriter (uw_buffered w) r);
    bw_set_len := fun w n =>                                                            (* 189-191 *)
      r <- bw_set_len B (uw_req w) (n + uw_buffered w) ;; Ret (UWriter (uw_buffered w) r);
    bw_advance := u_advance;
    bw_cancel := fun w e =>                                                             (* 226-233 *)
      res <- bw_cancel B (uw_req w) (Inner e) ;; Ret (IErr res)
  |}.

  (** utf8_validator.rs:119-134 [Control::request_writer]; copying more than the
      three bytes of [rest] would be UB. *)
  Definition u_request (buffered : nat) (rest : list byte) (c : C) (min_capacity : nat) : comp (uwriter W) :=
    req <- ct_request K c (buffered + min_capacity) ;;
    if buffered <=? length rest then
      req1 <- write_range B req 0 (firstn buffered rest) ;;
      req2 <- bw_set_len B req1 buffered ;;
      Ret (UWriter buffered req2)
    else UB.

  (** utf8_validator.rs:109-151 [Control] *)
  Definition ucontrol (buffered : nat) (rest : list byte) : control C (uwriter W) byte E (iresponse R) := {|
    ct_writer := uwriter_ops;
    ct_request := u_request buffered rest;
    ct_cancel := fun c e => res <- ct_cancel K c (Inner e) ;; Ret (IErr res);           (* 136-142 *)
    ct_finish := fun c => res <- ct_finish K c ;; Ret (IFinish res)                     (* 144-150 *)
  |}.

  (** utf8_validator.rs:40-58 [next] and 78-99 [Next::poll] *)
  Definition validator_next {G} (src : source byte E G) (c : C) (v : validator G)
    : comp (R * validator G * list (wevent byte) * wend) :=
    ' (res, g, tr, en) <- run_source (ucontrol (buffered v) (rest v)) c (src (vsource v)) ;;
    match res with
    | IAdvance b r res => Ret (res, Validator b r g, tr, en)
    | IErr res => Ret (res, Validator (buffered v) (rest v) g, tr, en)
    | IFinish res => Ret (res, Validator (buffered v) (rest v) g, tr, en)
    end.
End Validator.

(** ** A [Utf8Validator] as the source of the generic loader
    (generic/loader.rs:100-105, 57-79, as in [load]). *)
Definition load_utf8 {E G} (src : source byte E G) (grow : nat -> nat) (l : loader byte (validator G))
  : comp (result load_info (uerror E) * loader byte (validator G) * (list (wevent byte) * wend)) :=
  ' ((res, buf), v, tr, en) <- validator_next (gcontrol byte (uerror E) grow) src (ld_buf l) (ld_source l) ;;
  match res with
  | Appended len cap => Ret (ROk (load_info_new 0 len cap), Loader (ld_heap l) (ld_tail l) buf v, (tr, en))
  | Advanced b len cap =>
      ' (h, tail) <- commit_to (ld_heap l) (ld_tail l) (items b) ;;
      Ret (ROk (load_info_new (vlen b) len cap), Loader h tail buf v, (tr, en))
  | Finished b =>
      ' (h, tail) <- commit_to (ld_heap l) (ld_tail l) (items b) ;;
      Ret (ROk (load_info_done (vlen b)), Loader h tail buf v, (tr, en))
  | Canceled e => Ret (RErr e, Loader (ld_heap l) (ld_tail l) buf v, (tr, en))
  end.
