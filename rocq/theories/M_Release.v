(** * M_Release: the writers of the generic sequence and of Utf8Validator, and the
    loader over them, built with overflow checks ([checks = true], the default of a
    debug build) or without ([false], the default of a release build).
    Model only; no proofs.
    [usz] is the number of values of [usize].  Everything without subtraction is as in
    M_Writer, M_GenSeq and M_Utf8.  Sums are unbounded, as there, except for the one
    that takes a number of the source's choice (utf8_validator.rs:120). *)
From Verif Require Export M_GenSeq M_Utf8.

Set Implicit Arguments.

Section Mode.
  Context (checks : bool) (usz : nat).

  (** [-] and [+] on [usize]. *)
  Definition msub (a b : nat) : comp nat :=
    if b <=? a then Ret (a - b) else if checks then Panic else Ret (usz + a - b).
  Definition madd (a b : nat) : comp nat :=
    if a + b <? usz then Ret (a + b) else if checks then Panic else Ret (a + b - usz).

  Section Provided.
    Context {W T E R : Type} (B : bwriter W T E R).
    (** How many cells the allocation has from [as_mut_ptr] on. *)
    Context (room : W -> nat).

    (** buffer_writer.rs:34-41: where the spare cells start and how many; a slice that
        leaves the allocation must not be made. *)
    Definition spare_capacity_m (w : W) : comp (nat * nat) :=
      written <- bw_len B w ;;
      cap <- bw_capacity B w ;;
      len <- msub cap written ;;
      if written + len <=? room w then Ret (written, len) else UB.

    (** As [fill]. *)
    Definition fill_m (w : W) (xs : list T) : comp (W * nat) :=
      ' (written, spare) <- spare_capacity_m w ;;
      let ys := firstn spare xs in
      w1 <- write_range B w written ys ;;
      w2 <- bw_set_len B w1 (written + length ys) ;;
      Ret (w2, length ys).

    (** As [run_writer]; [push_item], [shrink_to], [as_slice] and [as_mut_slice] have no subtraction that
        could overflow (buffer_writer.rs:22-26, 50-80). *)
    Fixpoint run_writer_m {G} (p : wprog T E G) (w : W) (tr : list (wevent T)) : comp (R * G * list (wevent T) * wend) :=
      match p with
      | WPush x k =>
          ' (w', ok) <- push_item B w x ;;
          run_writer_m (k ok) w' (tr ++ [if ok then PushOk x else PushErr x])
      | WFill xs k =>
          ' (w', n) <- fill_m w xs ;;
          run_writer_m (k n) w' (tr ++ [Filled (firstn n xs)])
      | WShrink n k => w' <- shrink_to B w n ;; run_writer_m k w' (tr ++ [Shrunk n])
      | WLen k => n <- bw_len B w ;; run_writer_m (k n) w tr
      | WCapacity k => n <- bw_capacity B w ;; run_writer_m (k n) w tr
      | WSlice k => l <- as_slice B w ;; run_writer_m (k l) w tr
      | WEdit f k => ' (w', ys) <- edit_slice B w f ;; run_writer_m k w' (tr ++ [Edited ys])
      | WAdvance g => r <- bw_advance B w ;; Ret (r, g, tr, EndAdvance)
      | WCancel e g => r <- bw_cancel B w e ;; Ret (r, g, tr, EndCancel)
      end.
  End Provided.

  Definition run_source_m {C W T E R G} (K : control C W T E R) (room : W -> nat) (c : C) (a : sact T E G)
    : comp (R * G * list (wevent T) * wend) :=
    match a with
    | SRequest n p => w <- ct_request K c n ;; run_writer_m (ct_writer K) room p w []
    | SFinish g => r <- ct_finish K c ;; Ret (r, g, [], EndFinish)
    | SCancel e g => r <- ct_cancel K c e ;; Ret (r, g, [], EndReject)
    end.

  (** control.rs:76-121 *)
  Definition request_ops_m (T E : Type) : bwriter (request T) T E (response T E * vec T) := {|
    bw_capacity := fun r => msub (vcap (rbuf r)) (vlen (rbuf r));               (* 82-84 *)
    bw_len := fun r => msub (vlen (rbuf r)) (roffset r);                        (* 86-88 *)
    bw_read := bw_read (request_writer_ops T E);
    bw_write := bw_write (request_writer_ops T E);
    bw_set_len := bw_set_len (request_writer_ops T E);
    bw_advance := bw_advance (request_writer_ops T E);
    bw_cancel := bw_cancel (request_writer_ops T E)
  |}.
  Definition request_room {T} (r : request T) : nat := vcap (rbuf r) - roffset r.

  (** control.rs:29-51 *)
  Definition request_writer_m {T} (grow : nat -> nat) (buf : vec T) (min_size : nat) : comp (request T) :=
    let offset := vlen buf in
    spare <- msub (vcap buf) offset ;;
    if min_size <=? spare
    then Ret (Request vec_new buf offset)
    else Ret (Request buf (with_capacity (grow min_size)) 0).

  (** control.rs:23-60 *)
  Definition gcontrol_m (T E : Type) (grow : nat -> nat)
    : control (vec T) (request T) T E (response T E * vec T) := {|
    ct_writer := request_ops_m T E;
    ct_request := fun buf n => request_writer_m grow buf n;
    ct_cancel := fun buf e => Ret (Canceled e, buf);                            (* 53-55 *)
    ct_finish := fun buf => Ret (Finished buf, vec_new)                         (* 57-59 *)
  |}.

  (** loader.rs:57-79 [Load::poll], once the source has answered. *)
  Definition poll_m {T E G} (l : loader T G) (x : (response T E * vec T) * G * list (wevent T) * wend)
    : comp (result load_info E * loader T G * (list (wevent T) * wend)) :=
    let '((res, buf), g, tr, en) := x in
    match res with
    | Appended len cap => Ret (ROk (load_info_new 0 len cap), Loader (ld_heap l) (ld_tail l) buf g, (tr, en))
    | Advanced b len cap =>
        ' (h, tail) <- commit_to (ld_heap l) (ld_tail l) (items b) ;;
        Ret (ROk (load_info_new (vlen b) len cap), Loader h tail buf g, (tr, en))
    | Finished b =>
        ' (h, tail) <- commit_to (ld_heap l) (ld_tail l) (items b) ;;
        Ret (ROk (load_info_done (vlen b)), Loader h tail buf g, (tr, en))
    | Canceled e => Ret (RErr e, Loader (ld_heap l) (ld_tail l) buf g, (tr, en))
    end.

  (** loader.rs:100-105 [load] *)
  Definition load_m {T E G} (src : source T E G) (grow : nat -> nat) (l : loader T G)
    : comp (result load_info E * loader T G * (list (wevent T) * wend)) :=
    x <- run_source_m (gcontrol_m T E grow) request_room (ld_buf l) (src (ld_source l)) ;;
    poll_m l x.

  Section Validator.
    Context {C W E R : Type} (K : control C W byte (uerror E) R) (room : W -> nat).
    Let B := ct_writer K.

    (** utf8_validator.rs:163-234 [Writer]; [advance] (193-224) subtracts nothing. *)
    Definition uwriter_ops_m : bwriter (uwriter W) byte E (iresponse R) := {|
      bw_capacity := fun w => n <- bw_capacity B (uw_req w) ;; msub n (uw_buffered w);    (* 173-175 *)
      bw_len := fun w => n <- bw_len B (uw_req w) ;; msub n (uw_buffered w);              (* 177-179 *)
      bw_read := bw_read (uwriter_ops K);
      bw_write := bw_write (uwriter_ops K);
      bw_set_len := bw_set_len (uwriter_ops K);
      bw_advance := u_advance K;
      bw_cancel := bw_cancel (uwriter_ops K)
    |}.
    Definition uwriter_room (w : uwriter W) : nat := room (uw_req w) - uw_buffered w.

    (** utf8_validator.rs:119-134 [Control::request_writer] *)
    Definition u_request_m (buffered : nat) (rest : list byte) (c : C) (min_capacity : nat) : comp (uwriter W) :=
      n <- madd buffered min_capacity ;;
      req <- ct_request K c n ;;
      if buffered <=? length rest then
        req1 <- write_range B req 0 (firstn buffered rest) ;;
        req2 <- bw_set_len B req1 buffered ;;
        Ret (UWriter buffered req2)
      else UB.

    (** utf8_validator.rs:109-151 [Control] *)
    Definition ucontrol_m (buffered : nat) (rest : list byte) : control C (uwriter W) byte E (iresponse R) := {|
      ct_writer := uwriter_ops_m;
      ct_request := u_request_m buffered rest;
      ct_cancel := ct_cancel (ucontrol K buffered rest);                                  (* 136-142 *)
      ct_finish := ct_finish (ucontrol K buffered rest)                                   (* 144-150 *)
    |}.

    (** utf8_validator.rs:78-99 [Next::poll], once the source has answered. *)
    Definition upoll_m {G} (v : validator G) (x : iresponse R * G * list (wevent byte) * wend)
      : R * validator G * list (wevent byte) * wend :=
      let '(res, g, tr, en) := x in
      match res with
      | IAdvance b r res => (res, Validator b r g, tr, en)
      | IErr res => (res, Validator (buffered v) (rest v) g, tr, en)
      | IFinish res => (res, Validator (buffered v) (rest v) g, tr, en)
      end.

    (** utf8_validator.rs:40-58 [next] *)
    Definition validator_next_m {G} (src : source byte E G) (c : C) (v : validator G)
      : comp (R * validator G * list (wevent byte) * wend) :=
      x <- run_source_m (ucontrol_m (buffered v) (rest v)) uwriter_room c (src (vsource v)) ;;
      Ret (upoll_m v x).
  End Validator.

  (** A [Utf8Validator] as the source of the generic loader, as in [load_utf8]. *)
  Definition load_utf8_m {E G} (src : source byte E G) (grow : nat -> nat) (l : loader byte (validator G))
    : comp (result load_info (uerror E) * loader byte (validator G) * (list (wevent byte) * wend)) :=
    x <- validator_next_m (gcontrol_m byte (uerror E) grow) request_room src (ld_buf l) (ld_source l) ;;
    poll_m l x.
End Mode.
