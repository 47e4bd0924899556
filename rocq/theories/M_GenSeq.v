(** * M_GenSeq: crates/parcom-sequences/src/generic (buffer, control, loader)
    and crates/parcom-sequence-sources/src/iterator_source.rs.
    Model only; no proofs. *)
From Verif Require Export M_Writer.

Set Implicit Arguments.

(** ** Shared memory: the chain of [Arc<OnceLock<Node<T>>>] (generic.rs:13-16).
    A location is an index; [None] is a [OnceLock] not yet set.  The buffer of a
    node is never changed, so only its items matter. *)
Definition heap (T : Type) := list (option (list T * nat)).

(** [OnceLock::get] *)
Definition get {T} (h : heap T) (node : nat) : option (list T * nat) :=
  match nth_error h node with Some c => c | None => None end.

(** generic/loader.rs:40-48 [commit_to]: the heap and the new tail. *)
Definition commit_to {T} (h : heap T) (tail : nat) (buf : list T) : comp (heap T * nat) :=
  let next := length h in
  match nth_error h tail with
  | Some None => Ret (list_set h tail (Some (buf, next)) ++ [None], next)
  | _ => Panic
  end.

(** ** generic/buffer.rs *)
(** buffer.rs:7-10 *)
Record gbuffer := GBuffer { head_offset : nat; head_node : nat }.

(** The local variables of [advance] (buffer.rs:33-35) and one turn of its loop
    (37-48); [inr]: the loop ends. *)
Record adv := Adv { ad_remain : nat; ad_offset : nat; ad_node : nat }.

Definition adv_begin (b : gbuffer) (n : nat) : adv := Adv n (head_offset b) (head_node b).

Definition adv_turn {T} (h : heap T) (a : adv) : comp (adv + adv) :=
  match get h (ad_node a) with
  | None => Ret (inr a)
  | Some (buf, next) =>
      len <- usub (length buf) (ad_offset a) ;;
      if ad_remain a <? len then Ret (inr (Adv 0 (ad_offset a + ad_remain a) (ad_node a)))
      else Ret (inl (Adv (ad_remain a - len) 0 next))
  end.

(** buffer.rs:50-53 *)
Definition adv_end (a : adv) : gbuffer * nat := (GBuffer (ad_offset a) (ad_node a), ad_remain a).

(** buffer.rs:29-54 [advance] with no commit in between. *)
Fixpoint adv_loop {T} (fuel : nat) (h : heap T) (a : adv) : comp (gbuffer * nat) :=
  match fuel with
  | 0 => OutOfFuel
  | S fuel =>
      r <- adv_turn h a ;;
      match r with inl a' => adv_loop fuel h a' | inr a' => Ret (adv_end a') end
  end.

Definition gadvance {T} (fuel : nat) (h : heap T) (b : gbuffer) (n : nat) : comp (gbuffer * nat) :=
  adv_loop fuel h (adv_begin b n).

(** buffer.rs:63-66 and 56-61 *)
Record giter := GIter { it_offset : nat; it_node : nat }.
Definition gsegments (b : gbuffer) : giter := GIter (head_offset b) (head_node b).

(** buffer.rs:71-78; slicing past the end panics. *)
Definition gnext {T} (h : heap T) (i : giter) : comp (option (list T) * giter) :=
  match get h (it_node i) with
  | None => Ret (None, i)
  | Some (buf, next) =>
      if it_offset i <=? length buf
      then Ret (Some (skipn (it_offset i) buf), GIter 0 next)
      else Panic
  end.

(** All segments up to the first [None]. *)
Fixpoint gcollect {T} (fuel : nat) (h : heap T) (i : giter) : comp (list (list T)) :=
  match fuel with
  | 0 => OutOfFuel
  | S fuel =>
      ' (o, i') <- gnext h i ;;
      match o with
      | None => Ret []
      | Some s => l <- gcollect fuel h i' ;; Ret (s :: l)
      end
  end.

(** ** generic/control.rs *)
(** control.rs:69-74 *)
Record request (T : Type) := Request { to_append : vec T; rbuf : vec T; roffset : nat }.
(** control.rs:62-67; what the loader's [buf] is left as comes with it, since
    the request holds it by [&mut]. *)
Inductive response (T E : Type) :=
| Appended (len cap : nat)
| Advanced (buf : vec T) (len cap : nat)
| Finished (buf : vec T)
| Canceled (e : E).
Arguments Appended {T E}. Arguments Advanced {T E}. Arguments Finished {T E}. Arguments Canceled {T E}.

(** control.rs:76-121 *)
Definition request_writer_ops (T E : Type) : bwriter (request T) T E (response T E * vec T) := {|
  bw_capacity := fun r => usub (vcap (rbuf r)) (vlen (rbuf r));               (* 82-84 *)
  bw_len := fun r => usub (vlen (rbuf r)) (roffset r);                        (* 86-88 *)
  bw_read := fun r i => vec_read (rbuf r) (roffset r + i);                    (* 90-92 *)
  bw_write := fun r i x =>                                                    (* 94-96 *)
    v <- vec_write (rbuf r) (roffset r + i) x ;; Ret (Request (to_append r) v (roffset r));
  bw_set_len := fun r n =>                                                    (* 98-100 *)
    v <- vec_set_len (rbuf r) (n + roffset r) ;; Ret (Request (to_append r) v (roffset r));
  bw_advance := fun r =>                                                      (* 102-115 *)
    if vlen (to_append r) =? 0
    then Ret (Appended (vlen (rbuf r)) (vcap (rbuf r)), rbuf r)
    else Ret (Advanced (to_append r) (vlen (rbuf r)) (vcap (rbuf r)), rbuf r);
  bw_cancel := fun r e =>                                                     (* 117-120 *)
    v <- vec_drain_from (rbuf r) (roffset r) ;; Ret (Canceled e, v)
|}.

(** control.rs:29-51 [request_writer]; [grow] is the capacity that
    [Vec::with_capacity(strategy.calc_capacity(n))] has. *)
Definition request_writer {T} (grow : nat -> nat) (buf : vec T) (min_size : nat) : comp (request T) :=
  let offset := vlen buf in
  spare <- usub (vcap buf) offset ;;
  if min_size <=? spare
  then Ret (Request vec_new buf offset)
  else Ret (Request buf (with_capacity (grow min_size)) 0).

(** control.rs:23-60 *)
Definition gcontrol (T E : Type) (grow : nat -> nat)
  : control (vec T) (request T) T E (response T E * vec T) := {|
  ct_writer := request_writer_ops T E;
  ct_request := fun buf n => request_writer grow buf n;
  ct_cancel := fun buf e => Ret (Canceled e, buf);                            (* 53-55 *)
  ct_finish := fun buf => Ret (Finished buf, vec_new)                         (* 57-59 *)
|}.

(** ** generic/loader.rs *)
(** loader.rs:11-16, with the shared chain. *)
Record loader (T G : Type) := Loader {
  ld_heap : heap T;
  ld_tail : nat;
  ld_buf : vec T;
  ld_source : G
}.

(** generic.rs:28-33 [build] and loader.rs:19-26 *)
Definition loader_new {T G} (g : G) : loader T G := Loader [None] 0 vec_new g.
Definition buffer_new : gbuffer := GBuffer 0 0.

(** loader.rs:95-98 *)
Definition force_commit {T G} (l : loader T G) : comp (loader T G) :=
  ' (h, tail) <- commit_to (ld_heap l) (ld_tail l) (items (ld_buf l)) ;;
  Ret (Loader h tail vec_new (ld_source l)).

(** loader.rs:100-105 [load] and 57-79 [Load::poll] *)
Definition load {T E G} (src : source T E G) (grow : nat -> nat) (l : loader T G)
  : comp (result load_info E * loader T G * (list (wevent T) * wend)) :=
  ' ((res, buf), g, tr, en) <- run_source (gcontrol T E grow) (ld_buf l) (src (ld_source l)) ;;
  match res with
  | Appended len cap => Ret (ROk (load_info_new 0 len cap), Loader (ld_heap l) (ld_tail l) buf g, (tr, en))
  | Advanced b len cap =>
      ' (h, tail) <- commit_to (ld_heap l) (ld_tail l) (items b) ;;
      Ret (ROk (load_info_new (vlen b) len cap), Loader h tail buf g, (tr, en))
  | Finished b =>
      ' (h, tail) <- commit_to (ld_heap l) (ld_tail l) (items b) ;;
      Ret (ROk (load_info_done (vlen b)), Loader h tail buf g, (tr, en))
  | Canceled e => Ret (RErr e, Loader (ld_heap l) (ld_tail l) buf g, (tr, en))
  end.

(** ** iterator_source.rs:47-63; the state is the chunks still to come. *)
Fixpoint push_all {T E G} (seg : list T) (k : wprog T E G) : wprog T E G :=
  match seg with
  | [] => k
  | item :: seg' => WPush item (fun _ => push_all seg' k)
  end.

Definition iterator_source {T} : source T Never (list (list T)) :=
  fun iter =>
    match iter with
    | [] => SFinish []
    | seg :: rest => SRequest (length seg) (push_all seg (WAdvance rest))
    end.
