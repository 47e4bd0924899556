(** * M_Live: the primitive parsers over the runner's sequence while loaders
    run: crates/parcom-parsers/src/primitive/any.rs, the.rs and atom.rs on
    [DefaultSequence] (crates/parcom-runners/src/default_runner/sequence.rs).
    Model only; no proofs.
    M_Prim has these parsers on sequences whose segments are given; here
    [segments.next(..).await] and [input.advance(..).await] are the futures of
    M_Runner, so loaders act between and during them.  Simplifications: those of
    M_Runner; what a parser does between two awaits touches nothing shared and
    is one step; dropping the parse future is left out. *)
From Verif Require Export M_Runner M_Prim.

Set Implicit Arguments.

Section Live.
  Context {T : Type}.

  (** What a parser decides: [advance] by so much and succeed, or miss. *)
  Inductive ruling (O : Type) := VTake (n : nat) (o : O) | VMiss.
  Arguments VMiss {O}.

  (** The body of a [while let Some(segment) = segments.next(..).await] loop and
      what follows it: a state, and what is done with each answer. *)
  Record looker (O : Type) := Looker {
    lk_state : Type;
    lk_init : lk_state;
    lk_step : lk_state -> option (list T) -> lk_state + ruling O
  }.

  (** any.rs:69-84 *)
  Definition any_looker : looker T := {|
    lk_init := tt;
    lk_step := fun st answer =>
      match answer with
      | Some [] => inl st
      | Some (item :: _) => inr (VTake 1 item)
      | None => inr VMiss
      end
  |}.

  Variable eqb : T -> T -> bool.

  (** the.rs:62-80 *)
  Definition the_looker (x : T) : looker unit := {|
    lk_init := tt;
    lk_step := fun st answer =>
      match answer with
      | Some [] => inl st
      | Some (item :: _) => if eqb item x then inr (VTake 1 tt) else inr VMiss
      | None => inr VMiss
      end
  |}.

  (** atom.rs:36-64 on slices; the state is [remain]. *)
  Definition atom_looker (pattern : list T) : looker unit := {|
    lk_init := pattern;
    lk_step := fun remain answer =>
      match answer with
      | Some segment =>
          if length remain <=? length segment then
            if list_eqb eqb (firstn (length remain) segment) remain
            then inr (VTake (length remain) tt)
            else inr VMiss
          else if list_eqb eqb segment (firstn (length segment) remain)
               then inl (skipn (length segment) remain)
               else inr VMiss
      | None => inr VMiss
      end
  |}.

  Section Run.
    Context (modulus : nat) {O : Type} (p : looker O).

    Inductive lstate :=
    (* in the loop: the sequence's buffer, the parser's state, the segments *)
    | LLook (b : gbuffer) (st : lk_state p) (s : @sstate T)
    (* awaiting [advance], after the events [h] *)
    | LAdvance (h : list (@revent T)) (o : O) (a : @astate T)
    (* a miss, the sequence handed back *)
    | LMiss (b : gbuffer) (s : @sstate T).

    Definition after (b : gbuffer) (s : @sstate T) (r : lk_state p + ruling O) : lstate :=
      match r with
      | inl st => LLook b st s
      | inr (VTake n o) => LAdvance (s_hist s) o (ainit (s_sh s) b n)
      | inr VMiss => LMiss b s
      end.

    Inductive lstep : lstate -> lstate -> Prop :=
    | lv_loader b st x e x' i f c h :
        loader_step modulus x e x' ->
        lstep (LLook b st (SState x i f c h)) (LLook b st (SState x' i f c (note e h)))
    (* a call of [next], or part of a poll *)
    | lv_poll b st s s' :
        sstep modulus s s' -> s_pc s' <> SIdle -> lstep (LLook b st s) (LLook b st s')
    (* [next] is ready *)
    | lv_answer b st s s' r :
        sstep modulus s s' -> s_hist s' = EReturn r :: s_hist s ->
        lstep (LLook b st s) (after b s' (lk_step p st r))
    | lv_advance h o a a' :
        astep modulus a a' -> a_pc a <> AReady -> lstep (LAdvance h o a) (LAdvance h o a')
    (* afterwards *)
    | lv_advanced h o x e x' b n f c g :
        loader_step modulus x e x' ->
        lstep (LAdvance h o (AState x b n f c g)) (LAdvance h o (AState x' b n f c (note e g)))
    | lv_missed b x e x' i f c h :
        loader_step modulus x e x' ->
        lstep (LMiss b (SState x i f c h)) (LMiss b (SState x' i f c (note e h))).

    Inductive lreach (x : @shared T) (b : gbuffer) : lstate -> Prop :=
    | lr_init : lreach x b (LLook b (lk_init p) (sinit x b))
    | lr_step l l' : lreach x b l -> lstep l l' -> lreach x b l'.
  End Run.
End Live.
Arguments LLook {T O p} b st s.
Arguments LAdvance {T O p} h o a.
Arguments LMiss {T O p} b s.
Arguments lreach {T} modulus {O} p x b.
Arguments lstep {T} modulus {O p}.
Arguments VMiss {O}.
