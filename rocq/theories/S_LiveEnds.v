(** * S_LiveEnds: executions in which the parser's own steps are counted. *)
From Verif Require Export S_Live.

Section Count.
  Context {T O : Type} (modulus : nat) {p : @looker T O}.

  (** A step of a loader: the shared part changes, the parser's does not. *)
  Inductive by_loader : lstate p -> lstate p -> Prop :=
  | bl_look b st x e x' i f c h : loader_step modulus x e x' ->
      by_loader (LLook b st (SState x i f c h)) (LLook b st (SState x' i f c (note e h)))
  | bl_advance g o x e x' b n f c h : loader_step modulus x e x' ->
      by_loader (LAdvance g o (AState x b n f c h)) (LAdvance g o (AState x' b n f c (note e h)))
  | bl_miss b x e x' i f c h : loader_step modulus x e x' ->
      by_loader (LMiss b (SState x i f c h)) (LMiss b (SState x' i f c (note e h))).

  (** Any other step is the parser's. *)
  Definition own (l l' : lstate p) : Prop := lstep modulus l l' /\ ~ by_loader l l'.

  (** From [l] to [l'] with [k] steps of the parser and any number of steps of
      loaders, in any order. *)
  Inductive goes : nat -> lstate p -> lstate p -> Prop :=
  | goes_here l : goes 0 l l
  | goes_loader k l l1 l2 : by_loader l l1 -> goes k l1 l2 -> goes k l l2
  | goes_own k l l1 l2 : own l l1 -> goes k l1 l2 -> goes (1 + k) l l2.

  (** The events of the await that the parser is in, newest first. *)
  Definition events (l : lstate p) : list revent :=
    match l with LLook _ _ s => s_hist s | LAdvance _ _ a => a_hist a | LMiss _ s => s_hist s end.

  (** The source has said that it is done and sent a signal after that. *)
  Definition told (l : lstate p) : Prop := exists h1 h2, events l = h1 ++ ESend :: h2 /\ In EDone h2.

  (** The same, with fewer signals since the last [wait()] than there are values
      of the version counter whenever the parser makes a step. *)
  Inductive goes_calm : nat -> lstate p -> lstate p -> Prop :=
  | gc_here l : goes_calm 0 l l
  | gc_loader k l l1 l2 : by_loader l l1 -> goes_calm k l1 l2 -> goes_calm k l l2
  | gc_own k l l1 l2 : sends_since_wait (events l) < modulus -> own l l1 -> goes_calm k l1 l2 ->
      goes_calm (1 + k) l l2.
End Count.
