(** * L_Runner: invariants of the runner's sequence. *)
From Coq Require Import Lia.
From Verif Require Export M_Runner S_Runner L_GenSeq.

Local Arguments Nat.ltb : simpl never.
Local Arguments Nat.leb : simpl never.
Local Arguments Nat.eqb : simpl never.
Local Arguments Nat.modulo : simpl never.
Local Arguments Nat.sub : simpl never.

Section Histories.
  Context {T : Type}.
  Implicit Types (h : list (@revent T)).

  Lemma sends_before_wait h : sends (before_wait h) <= sends h.
  Proof. induction h as [|e h IH]; cbn; [lia|]. destruct e; cbn; lia. Qed.

  Lemma before_wait_in h e : In e (before_wait h) -> In e h.
  Proof. induction h as [|e' h IH]; cbn; auto. destruct e'; cbn; auto. Qed.
  Lemma before_look_in h e : In e (before_look h) -> In e h.
  Proof. induction h as [|e' h IH]; cbn; auto. destruct e'; cbn; auto. Qed.

  Lemma before_send_split h : exists h1, h = h1 ++ before_send h.
  Proof.
    induction h as [|e h (h1 & IH)]; cbn; [exists []; reflexivity|].
    destruct e; try (eexists (_ :: h1); cbn; now rewrite <- IH).
    exists [ESend]. reflexivity.
  Qed.

  (** With no send since the wait, what was before the latest send was before
      the wait. *)
  Lemma send_before_wait h : sends h = sends (before_wait h) ->
    exists h1, before_wait h = h1 ++ before_send h.
  Proof.
    induction h as [|e h IH]; cbn; intros E; [exists []; reflexivity|].
    pose proof (sends_before_wait h) as L.
    destruct e; cbn in *; try (apply IH; lia); try lia.
    apply before_send_split.
  Qed.

  Lemma appended_app (h1 h2 : list (@revent T)) : appended (h1 ++ h2) = appended h2 ++ appended h1.
  Proof.
    induction h1 as [|e h1 IH]; cbn; [now rewrite app_nil_r|].
    destruct e; auto. rewrite IH. now rewrite app_assoc.
  Qed.
  Lemma returned_app (h1 h2 : list (@revent T)) : returned (h1 ++ h2) = returned h2 ++ returned h1.
  Proof.
    induction h1 as [|e h1 IH]; cbn; [now rewrite app_nil_r|].
    destruct e as [| | | | | | |[seg|]]; auto. rewrite IH. now rewrite app_assoc.
  Qed.

  (** The order of appends, the done flag and ends of the sequence. *)
  Fixpoint orderly (q : list (list T)) h : Prop :=
    match h with
    | [] => True
    | e :: h => orderly q h /\
        match e with
        | EReturn None => In EDone h /\ returned h = q ++ appended (before_look h)
        | EAppend _ => ~ In EDone h
        | _ => True
        end
    end.

  Lemma orderly_none q (h1 h2 : list (@revent T)) : orderly q (h1 ++ EReturn None :: h2) ->
    In EDone h2 /\ returned h2 = q ++ appended (before_look h2).
  Proof. induction h1 as [|e h1 IH]; cbn; intros (A & B); auto. Qed.

  Lemma orderly_done q (h1 h2 : list (@revent T)) : orderly q (h1 ++ h2) -> In EDone h2 -> appended (h1 ++ h2) = appended h2.
  Proof.
    induction h1 as [|e h1 IH]; cbn; auto. intros (A & B) D.
    destruct e; auto. destruct B. apply in_or_app. auto.
  Qed.
  Lemma before_look_split h : exists h1, h = h1 ++ before_look h.
  Proof.
    induction h as [|e h (h1 & IH)]; cbn; [exists []; reflexivity|].
    destruct e; try (eexists (_ :: h1); cbn; now rewrite <- IH).
    exists [ELook]. reflexivity.
  Qed.

  Lemma prefix_refl {X} (a : list X) : prefix a a.
  Proof. exists []. apply app_nil_r. Qed.
  Lemma prefix_app {X} (a b c : list X) : prefix a b -> prefix a (b ++ c).
  Proof. intros (d & <-). exists (d ++ c). apply app_assoc. Qed.
  Lemma prefix_trans {X} (a b c : list X) : prefix a b -> prefix b c -> prefix a c.
  Proof. intros (d & <-) (e & <-). exists (d ++ e). apply app_assoc. Qed.

  Lemma before_wait_split h : exists h1, h = h1 ++ before_wait h.
  Proof.
    induction h as [|e h (h1 & IH)]; cbn; [exists []; reflexivity|].
    destruct e; try (eexists (_ :: h1); cbn; now rewrite <- IH).
    exists [EWait]. reflexivity.
  Qed.
  Lemma waited_prefix (q : list (list T)) h : prefix (q ++ appended (before_wait h)) (q ++ appended h).
  Proof.
    destruct (before_wait_split h) as (h1 & E). rewrite E at 2. rewrite appended_app.
    exists (appended h1). now rewrite app_assoc.
  Qed.

  Lemma mod_same m a b : 0 < m -> a <= b -> b - a < m -> a mod m = b mod m -> a = b.
  Proof.
    intros M L D E.
    pose proof (Nat.div_mod a m ltac:(lia)) as A. pose proof (Nat.div_mod b m ltac:(lia)) as B.
    rewrite E in A. assert (a / m <= b / m) by (apply Nat.div_le_mono; lia).
    assert (b - a = m * (b / m - a / m)) by (rewrite Nat.mul_sub_distr_l; lia).
    destruct (b / m - a / m) as [|k] eqn:K; [lia|]. rewrite Nat.mul_succ_r in *. lia.
  Qed.
  Lemma succ_mod m a : S (a mod m) mod m = S a mod m.
  Proof.
    destruct m as [|m]; [reflexivity|].
    rewrite <- (Nat.add_1_r (a mod S m)), <- (Nat.add_1_r a).
    apply Nat.add_mod_idemp_l. lia.
  Qed.
End Histories.

(** ** DefaultSegments *)
Section Segments.
  Context {T : Type} (modulus v0 : nat) (q : list (list T)).
  Hypothesis positive : 0 < modulus.

  Implicit Types (x : @shared T) (h : list (@revent T)).

  (** Of the shared part. *)
  Record xinv x h : Prop := XInv {
    x_done : done_flag x = true <-> In EDone h;
    x_version : version x = (v0 + sends h) mod modulus
  }.

  (** Of the iterator. *)
  Definition iinv x (i : giter) h : Prop :=
    exists ss, chain (sh_heap x) (it_node i) ss (sh_tail x) /\ off_ok (it_offset i) ss
      /\ returned h ++ queue_of (it_offset i) ss = q ++ appended h.

  Definition waited (v : nat) h : Prop := v = (v0 + sends (before_wait h)) mod modulus.
  Definition seen h : Prop := prefix (q ++ appended (before_wait h)) (returned h).
  Definition open_then h : Prop := ~ In EDone (before_wait h).

  Definition pinv (f : option nat) (c : @spc) h : Prop :=
    match c with
    | SIdle | SWait => True
    | SParked | SFut | SNext1 => match f with Some v => waited v h /\ seen h /\ open_then h | None => True end
    | SFut2 => match f with Some v => waited v h /\ seen h /\ open_then h | None => False end
    | SNext2 v => waited v h
    | SDone v => waited v h /\ seen h /\ returned h = q ++ appended (before_look h)
    | SSet v => waited v h /\ seen h /\ open_then h
    | SPanicked => False
    end.

  Definition winv x (f : option nat) (c : @spc) h : Prop :=
    c = SParked -> f <> None -> woken x = false -> sends_since_wait h < modulus ->
    registered x = true /\ sends_since_wait h <= draining x.

  Record sinv (s : @sstate T) : Prop := SInv {
    i_shared : xinv (s_sh s) (s_hist s);
    i_iter : iinv (s_sh s) (s_iter s) (s_hist s);
    i_order : orderly q (s_hist s);
    i_pc : pinv (s_fut s) (s_pc s) (s_hist s);
    i_wake : winv (s_sh s) (s_fut s) (s_pc s) (s_hist s)
  }.

  Lemma queue_app o (ss : list (list T)) b : off_ok o ss -> queue_of o (ss ++ [b]) = queue_of o ss ++ [b].
  Proof. destruct ss; cbn; auto. now intros ->. Qed.

  Lemma iter_none x i i' h : iinv x i h -> gnext (sh_heap x) i = Ret (None, i') ->
    i' = i /\ returned h = q ++ appended h.
  Proof.
    intros (ss & C & O & E) G. pose proof (gnext_ok _ _ _ _ C O) as N. destruct ss as [|s ss].
    - rewrite N in G. injection G as <-. cbn in E. rewrite app_nil_r in E. auto.
    - destruct N as (m & N & _). congruence.
  Qed.
  Lemma iter_some x i i' seg h : iinv x i h -> gnext (sh_heap x) i = Ret (Some seg, i') ->
    iinv x i' (EReturn (Some seg) :: h).
  Proof.
    intros (ss & C & O & E) G. pose proof (gnext_ok _ _ _ _ C O) as N. destruct ss as [|s ss].
    - congruence.
    - destruct N as (m & N & C'). rewrite G in N. injection N as -> ->.
      exists ss. cbn. split; [auto|]. split; [destruct ss; cbn; lia|].
      rewrite <- app_assoc. cbn in *. rewrite <- E. f_equal. f_equal. destruct ss; reflexivity.
  Qed.
  Lemma iter_never_panics x i h : iinv x i h -> gnext (sh_heap x) i <> Panic.
  Proof.
    intros (ss & C & O & E) G. pose proof (gnext_ok _ _ _ _ C O) as N.
    destruct ss; [congruence|]. destruct N as (? & ? & _). congruence.
  Qed.

  Lemma loader_keeps x e x' h : loader_step modulus x e x' -> xinv x h -> orderly q h ->
    xinv x' (note e h) /\ orderly q (note e h) /\
    (forall i, iinv x i h -> iinv x' i (note e h)).
  Proof.
    intros L [D V] O. destruct L; cbn in *.
    - split; [|split].
      + constructor; cbn; auto. split; [discriminate|]. intros [F|F]; [discriminate|]. now apply D.
      + split; auto. intros F. apply D in F. discriminate.
      + intros i (ss & C & OK & E). cbn in C. destruct (commit_ok _ _ _ _ seg C) as (h1 & tail1 & E1 & C1).
        rewrite H in E1. injection E1 as <- <-. exists (ss ++ [seg]). cbn. split; [auto|].
        split; [now apply off_ok_app|]. rewrite queue_app by auto. rewrite !app_assoc. now rewrite E.
    - split; [|split].
      + constructor; cbn; auto. split; auto.
      + auto.
      + intros i (ss & C & OK & E). exists ss. cbn in *. auto.
    - split; [|split].
      + constructor; cbn.
        * rewrite D. split; [auto|]. intros [F|F]; [discriminate|auto].
        * rewrite V, Nat.add_succ_r. apply succ_mod.
      + auto.
      + intros i (ss & C & OK & E). exists ss. cbn in *. auto.
    - split; [|split; [auto|]].
      + constructor; cbn; auto.
      + intros i (ss & C & OK & E). exists ss. cbn in *. auto.
  Qed.

  Lemma loader_pc x e x' f c h : loader_step modulus x e x' -> pinv f c h -> pinv f c (note e h).
  Proof.
    intros L P. destruct L; cbn; auto; destruct c; cbn in *; auto; destruct f; auto.
  Qed.

  Lemma loader_wake x e x' f c h : loader_step modulus x e x' -> winv x f c h -> winv x' f c (note e h).
  Proof.
    intros L W C F K S. unfold winv in *. destruct L; cbn in *.
    - apply W; auto.
    - apply W; auto.
    - unfold sends_since_wait in *. cbn in *. pose proof (sends_before_wait h). destruct (W C F K) as (A & B); [|split; auto]; lia.
    - unfold sends_since_wait in *.
      apply Bool.orb_false_elim in K. destruct K as (-> & ->).
      destruct (W C F eq_refl S) as (A & B). discriminate.
  Qed.

  Lemma sstep_inv s s' : sinv s -> sstep modulus s s' -> sinv s'.
  Proof.
    intros [X I O P W] St. destruct St; cbn [s_sh s_iter s_fut s_pc s_hist] in *.
    - destruct (loader_keeps _ _ _ _ H X O) as (A & B & C). constructor; cbn [s_sh s_iter s_fut s_pc s_hist]; auto.
      + eapply loader_pc; eauto.
      + eapply loader_wake; eauto.
    - constructor; cbn; auto; destruct X as [D V].
      + constructor; cbn; auto. rewrite D. split; auto. intros [F|F]; [discriminate|auto].
      + intros _ F. congruence.
    - constructor; cbn; auto; destruct X as [D V].
      + constructor; cbn; auto. rewrite D. split; auto. intros [F|F]; [discriminate|auto].
      + intros F. discriminate.
    - constructor; cbn; auto; destruct X as [D V].
      + constructor; cbn; auto.
      + intros F. discriminate.
    - constructor; cbn; auto. intros F; discriminate.
    - constructor; cbn; auto. intros F; discriminate.
    - constructor; cbn; auto. intros F; discriminate.
    - constructor; cbn; auto. intros F; discriminate.
    - constructor; cbn; auto; destruct X as [D V].
      + constructor; cbn; auto.
      + intros _ _ _ S. split; [auto|]. cbn in P. destruct P as (P & _). unfold waited in P.
        unfold sends_since_wait in *. rewrite H in V.
        pose proof (sends_before_wait h).
        assert (v0 + sends (before_wait h) = v0 + sends h) by (apply (mod_same modulus); try lia; congruence). lia.
    - constructor; cbn; auto; destruct X as [D V].
      + constructor; cbn; auto. rewrite D. split; auto. intros [F|F]; [discriminate|auto].
      + now apply (iter_some x i).
      + intros F; discriminate.
    - destruct (iter_none _ _ _ _ I H) as (-> & R). constructor; cbn; auto. intros F; discriminate.
    - constructor; cbn; auto; destruct X as [D V].
      + constructor; cbn; auto. rewrite D. split; auto. intros [F|F]; [discriminate|auto].
      + exact V.
      + intros F; discriminate.
    - constructor; cbn; auto; destruct X as [D V].
      + constructor; cbn; auto. rewrite D. split; auto. intros [F|F]; [discriminate|auto].
      + now apply (iter_some x i).
      + intros F; discriminate.
    - destruct (iter_none _ _ _ _ I H) as (-> & R). constructor; cbn; auto; destruct X as [D V].
      + constructor; cbn; auto. rewrite D. split; auto. intros [F|F]; [discriminate|auto].
      + cbn in P. split; [exact P|]. split; [|exact R]. unfold seen. cbn. rewrite R. apply waited_prefix.
      + intros F; discriminate.
    - constructor; cbn; auto; destruct X as [D V].
      + constructor; cbn; auto. rewrite D. split; auto. intros [F|F]; [discriminate|auto].
      + destruct P as (_ & _ & P). split; [auto|]. split; [now apply D|auto].
      + intros F; discriminate.
    - constructor; cbn; auto; destruct X as [D V].
      + destruct P as (A & B & _). split; [auto|split; [auto|]]. intros F.
        apply before_wait_in in F. apply D in F. congruence.
      + intros F; discriminate.
    - constructor; cbn; auto; destruct X as [D V].
      + constructor; cbn; [exact D|exact V].
      + intros _ _ F. discriminate.
    - exfalso. eapply iter_never_panics; eauto.
    - exfalso. eapply iter_never_panics; eauto.
  Qed.

  Lemma start_done (x : @shared T) : done_flag x = true <-> In EDone (start_history x).
  Proof.
    unfold start_history. destruct (done_flag x); cbn; split; auto. discriminate.
  Qed.
  Lemma start_sends (x : @shared T) : sends (start_history x) = 0.
  Proof. unfold start_history. now destruct (done_flag x). Qed.
  Lemma start_appended (x : @shared T) : appended (start_history x) = [].
  Proof. unfold start_history. now destruct (done_flag x). Qed.
  Lemma start_returned (x : @shared T) : returned (start_history x) = [].
  Proof. unfold start_history. now destruct (done_flag x). Qed.
  Lemma start_orderly (x : @shared T) : orderly q (start_history x).
  Proof. unfold start_history. destruct (done_flag x); cbn; auto. Qed.
  Lemma start_xinv x : version x = v0 -> v0 < modulus -> xinv x (start_history x).
  Proof.
    intros V L. constructor; [apply start_done|]. rewrite start_sends, Nat.add_0_r, Nat.mod_small; auto.
  Qed.

  Lemma sreach_inv x0 b s : version x0 = v0 -> v0 < modulus -> ahead (sh_heap x0) (sh_tail x0) b q ->
    sreach modulus x0 b s -> sinv s.
  Proof.
    intros V L (ss & C & A) R. induction R as [|s s' R IH St].
    - constructor; cbn; auto.
      + now apply start_xinv.
      + exists ss. rewrite start_appended, start_returned. destruct ss as [|s ss]; cbn in *.
        * destruct A as (A & ->). repeat split; auto.
        * destruct A as (A & ->). repeat split; auto. now rewrite app_nil_r.
      + apply start_orderly.
      + intros F; discriminate.
    - eapply sstep_inv; eauto.
  Qed.
End Segments.

(** ** DefaultSequenceAdvance *)
Section Advance.
  Context {T : Type} (modulus v0 : nat) (q : list (list T)) (n : nat).
  Hypothesis positive : 0 < modulus.

  Implicit Types (x : @shared T) (h : list (@revent T)).

  (** At node [m], offset [o], the items left are all but the first [k]. *)
  Definition at_item x (o m : nat) (k : nat) h : Prop :=
    exists ss, chain (sh_heap x) m ss (sh_tail x) /\ off_ok o ss
      /\ skipn o (concat ss) = skipn k (all_items q h) /\ k <= length (all_items q h).

  (** How far the first look went. *)
  Definition reached_item h : nat :=
    match before_first_look h with Some h0 => Nat.min n (length (all_items q h0)) | None => 0 end.

  Definition apinv x (b : gbuffer) (rem : nat) (c : apc) h : Prop :=
    match c with
    | AParked | AFut | AFut2 | AWait =>
        at_item x (head_offset b) (head_node b) (reached_item h) h
        /\ rem = match before_first_look h with Some _ => 0 | None => n end
    | ALoop a =>
        exists k, at_item x (ad_offset a) (ad_node a) k h /\ rem = 0 /\
          match before_first_look h with
          | Some _ => ad_remain a = 0 /\ k = reached_item h
          | None => k + ad_remain a = n
          end
    | ACheck m => at_item x (head_offset b) (head_node b) (reached_item h) h
                  /\ rem = 0 /\ before_first_look h <> None
    | AWake | AReady => at_item x (head_offset b) (head_node b) (reached_item h) h
                        /\ rem = 0 /\ before_first_look h <> None
    | APanicked => True
    end.

  Definition afinv (f : option nat) (c : apc) h : Prop :=
    match c with
    | AParked | AFut | AWait => match f with Some v => waited modulus v0 v h | None => True end
    | AFut2 | ALoop _ | ACheck _ | AWake => match f with Some v => waited modulus v0 v h | None => False end
    | AReady | APanicked => True
    end.

  Definition awinv x (f : option nat) (c : apc) h : Prop :=
    c = AParked -> f <> None -> woken x = false -> sends_since_wait h < modulus ->
    registered x = true /\ sends_since_wait h <= draining x.

  Record ainv (s : @astate T) : Prop := AInv {
    ai_shared : xinv modulus v0 (a_sh s) (a_hist s);
    ai_order : orderly q (a_hist s);
    ai_pc : apinv (a_sh s) (a_buf s) (a_remain s) (a_pc s) (a_hist s);
    ai_fut : afinv (a_fut s) (a_pc s) (a_hist s);
    ai_wake : awinv (a_sh s) (a_fut s) (a_pc s) (a_hist s)
  }.

  Lemma skipn_grow {X} k (l m : list X) : k <= length l -> skipn k (l ++ m) = skipn k l ++ m.
  Proof. intros L. rewrite skipn_app. now replace (k - length l) with 0 by lia. Qed.

  Lemma loader_item x e x' h o m k : loader_step modulus x e x' -> at_item x o m k h -> at_item x' o m k (note e h).
  Proof.
    intros L (ss & C & O & E & K). destruct L; cbn in *.
    - destruct (commit_ok _ _ _ _ seg C) as (h1 & tail1 & E1 & C1).
      rewrite H in E1. injection E1 as <- <-. exists (ss ++ [seg]). split; [auto|].
      split; [now apply off_ok_app|]. unfold all_items in *. cbn. rewrite app_assoc.
      rewrite off_app by auto. rewrite (concat_app _ [seg]). cbn. rewrite app_nil_r.
      rewrite skipn_grow by auto. rewrite app_length. split; [now rewrite E|lia].
    - exists ss. auto.
    - exists ss. auto.
    - exists ss. auto.
  Qed.

  Lemma loader_look x e x' h : loader_step modulus x e x' -> before_first_look (note e h) = before_first_look h.
  Proof. destruct 1; cbn; auto; now destruct (before_first_look h). Qed.

  Lemma loader_reached x e x' h : loader_step modulus x e x' -> reached_item (note e h) = reached_item h.
  Proof. intros L. unfold reached_item. now rewrite (loader_look _ _ _ _ L). Qed.

  Lemma loader_apc x e x' b rem c h : loader_step modulus x e x' -> apinv x b rem c h -> apinv x' b rem c (note e h).
  Proof.
    intros L. unfold apinv. rewrite !(loader_look _ _ _ _ L), !(loader_reached _ _ _ _ L).
    destruct c; auto; try (intros (A & B); split; [eapply loader_item; eauto|auto]).
    intros (k & A & B). exists k. split; [eapply loader_item; eauto|auto].
  Qed.

  Lemma loader_afut x e x' f c h : loader_step modulus x e x' -> afinv f c h -> afinv f c (note e h).
  Proof. intros L P. destruct L; cbn; auto; destruct c; cbn in *; auto; destruct f; auto. Qed.

  Lemma loader_awake x e x' f c h : loader_step modulus x e x' -> awinv x f c h -> awinv x' f c (note e h).
  Proof.
    intros L W C F K S. unfold awinv in *. destruct L; cbn in *.
    - apply W; auto.
    - apply W; auto.
    - unfold sends_since_wait in *. cbn in *. pose proof (sends_before_wait h).
      destruct (W C F K) as (A & B); [|split; auto]; lia.
    - unfold sends_since_wait in *.
      apply Bool.orb_false_elim in K. destruct K as (-> & ->).
      destruct (W C F eq_refl S) as (A & B). discriminate.
  Qed.

  Lemma turn_more x a a' k h : at_item x (ad_offset a) (ad_node a) k h ->
    adv_turn (sh_heap x) a = Ret (inl a') ->
    exists j, at_item x (ad_offset a') (ad_node a') (k + j) h /\ j <= ad_remain a /\ ad_remain a' = ad_remain a - j.
  Proof.
    intros (ss & C & O & E & K) A. destruct (adv_turn_ok _ _ _ _ C O) as (r & E1 & P).
    rewrite A in E1. injection E1 as <-. destruct P as (s & ss' & -> & C' & O' & L & R).
    exists (length (skipn (ad_offset a) s)). split; [|auto].
    exists ss'. rewrite O'. split; [auto|]. split; [destruct ss'; cbn; lia|]. cbn [off_ok] in O.
    assert (F : skipn (length (skipn (ad_offset a) s)) (skipn (ad_offset a) (concat (s :: ss'))) = concat ss').
    { rewrite skip_first by auto. now rewrite Nat.sub_diag. }
    rewrite E in F. rewrite skipn_add in F. split.
    - cbn. symmetry. rewrite Nat.add_comm in F. rewrite Nat.add_comm. exact F.
    - pose proof (skip_first_len _ s ss' O) as G. rewrite E, skipn_length in G. lia.
  Qed.

  Lemma turn_last x a a' k h : at_item x (ad_offset a) (ad_node a) k h ->
    adv_turn (sh_heap x) a = Ret (inr a') ->
    at_item x (ad_offset a') (ad_node a') (Nat.min (k + ad_remain a) (length (all_items q h))) h.
  Proof.
    intros (ss & C & O & E & K) A. destruct (adv_turn_ok _ _ _ _ C O) as (r & E1 & P).
    rewrite A in E1. injection E1 as <-. destruct P as (ss' & C' & O' & E' & R).
    exists ss'. split; [auto|]. split; [auto|]. split; [|lia]. rewrite E', E, skipn_add.
    destruct (Nat.le_ge_cases (k + ad_remain a) (length (all_items q h))).
    - rewrite Nat.min_l by auto. f_equal; lia.
    - rewrite Nat.min_r by auto. rewrite !skipn_all2; auto; lia.
  Qed.

  Lemma turn_never_panics x a k h : at_item x (ad_offset a) (ad_node a) k h -> adv_turn (sh_heap x) a <> Panic.
  Proof.
    intros (ss & C & O & E & K) A. destruct (adv_turn_ok _ _ _ _ C O) as (r & E1 & P). congruence.
  Qed.

  Lemma at_item_quiet x o m k e h : at_item x o m k h -> all_items q (e :: h) = all_items q h -> at_item x o m k (e :: h).
  Proof. intros (ss & C & O & E & K) I. exists ss. rewrite I. auto. Qed.

  Lemma xinv_quiet x e h : xinv modulus v0 x h -> e = EWait \/ e = ELook -> xinv modulus v0 x (e :: h).
  Proof.
    intros [D V] [-> | ->]; constructor; cbn; auto; rewrite D; split; auto; intros [F|F]; auto; discriminate.
  Qed.
  Lemma orderly_quiet e h : orderly q h -> e = EWait \/ e = ELook -> orderly q (e :: h).
  Proof. intros O [-> | ->]; cbn; auto. Qed.

  Lemma astep_inv s s' : ainv s -> astep modulus s s' -> ainv s'.
  Proof.
    intros [X O P F W] St. destruct St; cbn [a_sh a_buf a_remain a_fut a_pc a_hist] in *.
    - destruct (loader_keeps modulus v0 q _ _ _ _ H X O) as (A & B & _).
      constructor; cbn [a_sh a_buf a_remain a_fut a_pc a_hist]; auto.
      + eapply loader_apc; eauto.
      + eapply loader_afut; eauto.
      + eapply loader_awake; eauto.
    - constructor; cbn; auto; [destruct X as [D V]; constructor; auto|]. intros Q; discriminate.
    - constructor; cbn; auto; [destruct X as [D V]; constructor; auto|]. intros Q; discriminate.
    - constructor; cbn; auto. intros Q; discriminate.
    - constructor; cbn; auto. intros Q; discriminate.
    - constructor; cbn; auto. intros Q; discriminate.
    - constructor; cbn; auto. intros Q; discriminate.
    - constructor; cbn; auto; destruct X as [D V].
      + constructor; auto.
      + intros _ _ _ S. split; [auto|]. cbn in F. unfold waited in F.
        unfold sends_since_wait in *. rewrite H in V.
        pose proof (sends_before_wait h).
        assert (v0 + sends (before_wait h) = v0 + sends h) by (apply (mod_same modulus); try lia; congruence). lia.
    - (* wait *)
      constructor; cbn [a_sh a_buf a_remain a_fut a_pc a_hist].
      + apply xinv_quiet; auto.
      + apply orderly_quiet; auto.
      + cbn in P. destruct P as (A & ->). cbn [apinv].
        assert (BL : before_first_look (EWait :: h) = before_first_look h) by (cbn; now destruct (before_first_look h)).
        assert (RE : reached_item (EWait :: h) = reached_item h) by (unfold reached_item; now rewrite BL).
        exists (reached_item h). rewrite BL, RE. split; [apply at_item_quiet; auto|]. split; [auto|].
        unfold reached_item. destruct (before_first_look h); cbn; auto.
      + cbn. destruct X as [D V]. exact V.
      + intros Q; discriminate.
    - (* turn *)
      constructor; cbn [a_sh a_buf a_remain a_fut a_pc a_hist]; auto; [|intros Q; discriminate].
      destruct P as (k & A & -> & B). destruct (turn_more _ _ _ _ _ A H) as (j & A' & L & R).
      exists (k + j). split; [auto|]. split; [auto|]. destruct (before_first_look h).
      + destruct B as (B & ->). rewrite B in *. split; [lia|]. lia.
      + lia.
    - (* last *)
      constructor; cbn [a_sh a_buf a_remain a_fut a_pc a_hist].
      + apply xinv_quiet; auto.
      + apply orderly_quiet; auto.
      + destruct P as (k & A & -> & B). pose proof (turn_last _ _ _ _ _ A H) as A'.
        cbn [apinv adv_end fst snd head_offset head_node].
        assert (RE : reached_item (ELook :: h) = Nat.min (k + ad_remain a) (length (all_items q h))).
        { unfold reached_item at 1. cbn. destruct (before_first_look h) eqn:Q; [|now rewrite B].
          destruct B as (B & B'). rewrite B, Nat.add_0_r, B'. destruct A as (ss & _ & _ & _ & K).
          unfold reached_item in *. rewrite Q in *. symmetry. apply Nat.min_l. rewrite <- B'. exact K. }
        rewrite RE. split; [apply at_item_quiet; auto|]. split; [auto|]. cbn. now destruct (before_first_look h).
      + cbn in *. destruct f; auto.
      + intros Q; discriminate.
    - constructor; cbn; auto. intros Q; discriminate.
    - constructor; cbn; auto. intros Q; discriminate.
    - constructor; cbn; auto. intros Q; discriminate.
    - constructor; cbn; auto. intros Q; discriminate.
    - constructor; cbn; auto; [destruct X as [D V]; constructor; auto| | |].
      + cbn in P. destruct P as (A & -> & B). split; [exact A|]. now destruct (before_first_look h).
      + cbn in F. destruct f; auto.
      + intros _ _ Q. discriminate.
  Qed.

  Lemma start_look (x : @shared T) : before_first_look (start_history x) = None.
  Proof. unfold start_history. now destruct (done_flag x). Qed.

  Lemma areach_inv x0 b s : version x0 = v0 -> v0 < modulus -> ahead (sh_heap x0) (sh_tail x0) b q ->
    areach modulus x0 b n s -> ainv s.
  Proof.
    intros V L (ss & C & A) R. induction R as [|s s' R IH St].
    - constructor; cbn; auto.
      + now apply start_xinv.
      + apply start_orderly.
      + unfold reached_item. rewrite start_look.
        split; [|auto]. exists ss. unfold all_items. rewrite start_appended, app_nil_r. split; [auto|].
        destruct ss as [|s ss]; cbn in *.
        * destruct A as (A & ->). rewrite A. auto with arith.
        * destruct A as (A & ->). split; [auto|]. split; [|lia]. cbn. rewrite skipn_app.
          now replace (head_offset b - length s) with 0 by lia.
      + intros _ F; congruence.
    - eapply astep_inv; eauto.
  Qed.
End Advance.
