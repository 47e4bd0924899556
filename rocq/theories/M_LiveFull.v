(** * M_LiveFull: the primitive parsers of M_Live over the futures of
    M_RunnerFull.  Model only; no proofs. *)
From Verif Require Export M_Live M_RunnerFull.

Set Implicit Arguments.

Section Live.
  Context {T : Type} (modulus : nat) {O : Type} (p : @looker T O).

  Inductive flstate :=
  | FLLook (b : gbuffer) (st : lk_state p) (s : @fsstate T)
  | FLAdvance (h : list (@fevent T)) (o : O) (a : @fastate T)
  | FLMiss (b : gbuffer) (s : @fsstate T).

  Definition fafter (b : gbuffer) (s : @fsstate T) (r : lk_state p + ruling O) : flstate :=
    match r with
    | inl st => FLLook b st s
    | inr (VTake n o) => FLAdvance (fs_log s) o (fainit (fs_sh s) b n)
    | inr VMiss => FLMiss b s
    end.

  (** any.rs:69-84, the.rs:62-80, atom.rs:36-64, as in M_Live *)
  Inductive flstep : flstate -> flstate -> Prop :=
  | flv_loader b st x e x' i f c n h :
      floader_step modulus x e x' ->
      flstep (FLLook b st (FS x i f c n h)) (FLLook b st (FS x' i f c n (fnote e h)))
  | flv_poll b st s s' :
      fsstep modulus s s' -> fs_pc s' <> FSIdle -> flstep (FLLook b st s) (FLLook b st s')
  | flv_answer b st s s' r :
      fsstep modulus s s' -> fs_log s' = FE (EReturn r) :: fs_log s ->
      flstep (FLLook b st s) (fafter b s' (lk_step p st r))
  | flv_advance h o a a' :
      fastep modulus a a' -> fa_pc a <> FAReady -> flstep (FLAdvance h o a) (FLAdvance h o a')
  | flv_advanced h o x e x' b n f c m g :
      floader_step modulus x e x' ->
      flstep (FLAdvance h o (FA x b n f c m g)) (FLAdvance h o (FA x' b n f c m (fnote e g)))
  | flv_missed b x e x' i f c n h :
      floader_step modulus x e x' ->
      flstep (FLMiss b (FS x i f c n h)) (FLMiss b (FS x' i f c n (fnote e h))).

  Inductive flreach (x : @fshared T) (b : gbuffer) : flstate -> Prop :=
  | flr_init : flreach x b (FLLook b (lk_init p) (fsinit x b))
  | flr_step l l' : flreach x b l -> flstep l l' -> flreach x b l'.
End Live.
Arguments FLLook {T O p} b st s.
Arguments FLAdvance {T O p} h o a.
Arguments FLMiss {T O p} b s.
Arguments flreach {T} modulus {O} p x b.
Arguments flstep {T} modulus {O p}.
