(** * S_Utf8: UTF-8, and what a control must do. *)
From Verif Require Import M_Writer M_Utf8 S_GenSeq.

Set Implicit Arguments.
Local Open Scope N_scope.

(** Unicode scalar values and their encoding (RFC 3629). *)
Definition scalar (c : N) : Prop := c < 0xD800 \/ 0xE000 <= c < 0x110000.
Definition encode (c : N) : list byte :=
  if c <? 0x80 then [c]
  else if c <? 0x800 then [0xC0 + c / 64; 0x80 + c mod 64]
  else if c <? 0x10000 then [0xE0 + c / 4096; 0x80 + c / 64 mod 64; 0x80 + c mod 64]
  else [0xF0 + c / 262144; 0x80 + c / 4096 mod 64; 0x80 + c / 64 mod 64; 0x80 + c mod 64].

(** The bytes are the encoding of a text. *)
Definition utf8 (bs : list byte) : Prop := exists text, Forall scalar text /\ bs = flat_map encode text.

Local Close Scope N_scope.

(** What a control did with a [next]. *)
Inductive outcome (T E : Type) := Delivered (xs : list T) | Rejected (e : E) | Ended.
Arguments Delivered {T E}. Arguments Rejected {T E}. Arguments Ended {T E}.

(** [rep w v]: the writer [w] shows the vector [v].  Whatever a writer returns
    is what the vector would give; it may refuse or fail. *)
Record wtracks {W T E R} (B : bwriter W T E R) (rep : W -> vec T -> Prop) : Prop := {
  wt_len : forall w v n, rep w v -> bw_len B w = Ret n -> n = vlen v;
  wt_read : forall w v i x, rep w v -> bw_read B w i = Ret x -> vec_read v i = Ret x;
  wt_write : forall w v i x w', rep w v -> bw_write B w i x = Ret w' ->
      exists v', vec_write v i x = Ret v' /\ rep w' v';
  wt_set_len : forall w v n w', rep w v -> bw_set_len B w n = Ret w' ->
      exists v', vec_set_len v n = Ret v' /\ rep w' v'
}.

(** [view c r]: what the answer [r] means for the control [c]. *)
Record tracks {C W T E R} (K : control C W T E R) (rep : C -> W -> vec T -> Prop)
  (view : C -> R -> outcome T E) : Prop := {
  tk_writer : forall c, wtracks (ct_writer K) (rep c);
  tk_request : forall c n w, ct_request K c n = Ret w -> exists cells, rep c w (Vec cells 0);
  tk_advance : forall c w v xs r, rep c w v -> holds v xs -> bw_advance (ct_writer K) w = Ret r ->
      view c r = Delivered xs;
  tk_wcancel : forall c w v e r, rep c w v -> bw_cancel (ct_writer K) w e = Ret r -> view c r = Rejected e;
  tk_cancel : forall c e r, ct_cancel K c e = Ret r -> view c r = Rejected e;
  tk_finish : forall c r, ct_finish K c = Ret r -> view c r = Ended
}.

(** In addition nothing fails that a vector with the requested capacity would do. *)
Record conforming {C W T E R} (K : control C W T E R) (rep : C -> W -> vec T -> Prop)
  (view : C -> R -> outcome T E) : Prop := {
  cf_tracks : tracks K rep view;
  cf_request : forall c n, exists w cells, ct_request K c n = Ret w /\ rep c w (Vec cells 0) /\ n <= length cells;
  cf_capacity : forall c w v, rep c w v -> bw_capacity (ct_writer K) w = Ret (vcap v);
  cf_len : forall c w v, rep c w v -> bw_len (ct_writer K) w = Ret (vlen v);
  cf_read : forall c w v i x, rep c w v -> vec_read v i = Ret x -> bw_read (ct_writer K) w i = Ret x;
  cf_write : forall c w v i x v', rep c w v -> vec_write v i x = Ret v' ->
      exists w', bw_write (ct_writer K) w i x = Ret w' /\ rep c w' v';
  cf_set_len : forall c w v n v', rep c w v -> vec_set_len v n = Ret v' ->
      exists w', bw_set_len (ct_writer K) w n = Ret w' /\ rep c w' v';
  cf_advance : forall c w v, rep c w v -> exists r, bw_advance (ct_writer K) w = Ret r;
  cf_wcancel : forall c w v e, rep c w v -> exists r, bw_cancel (ct_writer K) w e = Ret r;
  cf_finish : forall c, exists r, ct_finish K c = Ret r
}.

(** ** Histories of a validator: one control per [next]. *)
Fixpoint next_all {C W E R G} (K : control C W byte (uerror E) R) (src : source byte E G)
  (cs : list C) (v : validator G) : comp (list (C * R * list (wevent byte) * wend) * validator G) :=
  match cs with
  | [] => Ret ([], v)
  | c :: cs' =>
      ' (r, v1, tr, en) <- validator_next K src c v ;;
      ' (rs, v2) <- next_all K src cs' v1 ;;
      Ret ((c, r, tr, en) :: rs, v2)
  end.

Section Seen.
  Context {C E R : Type} (view : C -> R -> outcome byte (uerror E)).
  Definition nrecord : Type := (C * R * list (wevent byte) * wend).

  (** What reached the other side. *)
  Definition passed_on (x : nrecord) : list byte :=
    let '(c, r, _, _) := x in match view c r with Delivered xs => xs | _ => [] end.
  (** What the source wrote and did not cancel. *)
  Definition produced (x : nrecord) : list byte :=
    let '(_, _, tr, en) := x in match en with EndAdvance => accepted tr | _ => [] end.
  Definition no_error (x : nrecord) : Prop :=
    let '(c, r, _, _) := x in match view c r with Rejected _ => False | _ => True end.
  Definition reports (x : nrecord) (e : uerror E) : Prop :=
    let '(c, r, _, _) := x in view c r = Rejected e.
End Seen.

(** ** An ideal control: hands out a fresh vector and tells what came of it. *)
Definition vec_ops (T E : Type) : bwriter (vec T) T E (outcome T E) := {|
  bw_capacity := fun v => Ret (vcap v);
  bw_len := fun v => Ret (vlen v);
  bw_read := @vec_read T;
  bw_write := @vec_write T;
  bw_set_len := @vec_set_len T;
  bw_advance := fun v => Ret (Delivered (items v));
  bw_cancel := fun _ e => Ret (Rejected e)
|}.
Definition vec_control (T E : Type) : control unit (vec T) T E (outcome T E) := {|
  ct_writer := vec_ops T E;
  ct_request := fun _ n => Ret (with_capacity n);
  ct_cancel := fun _ e => Ret (Rejected e);
  ct_finish := fun _ => Ret Ended
|}.

(** ** C55: a validator feeding the generic loader *)
Fixpoint load_utf8_all {E G} (src : source byte E G) (grow : nat -> nat) (n : nat) (l : loader byte (validator G))
  : comp (list (record byte (uerror E)) * loader byte (validator G)) :=
  match n with
  | 0 => Ret ([], l)
  | S n' =>
      ' (i, l1, tr) <- load_utf8 src grow l ;;
      ' (rs, l2) <- load_utf8_all src grow n' l1 ;;
      Ret ((i, tr) :: rs, l2)
  end.

Definition load_ok {T E} (r : record T E) : Prop := exists info, fst r = ROk info.
Definition load_produced {T E} (r : record T E) : list T :=
  match snd (snd r) with EndAdvance => accepted (fst (snd r)) | _ => [] end.

(** What pushing a chunk through a validator with [h] bytes held back into
    [spare] free cells does: what is kept of it, or [None] for a panic. *)
Definition kept_utf8 {T} (spare h : nat) (chunk : list T) : option (list T) :=
  match chunk with
  | [] => Some []
  | _ =>
      if spare <? 2 * h then None
      else if Nat.even (spare - 2 * h) then Some (firstn ((spare - 2 * h) / 2) chunk)
      else if length chunk <=? spare - 2 * h + 1 then Some chunk
      else None
  end.
