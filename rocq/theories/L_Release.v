(** * L_Release: lemmas for C83. *)
From Coq Require Import Lia.
From Verif Require Export S_Release L_Utf8Gen.

Local Arguments Nat.ltb : simpl never.
Local Arguments Nat.leb : simpl never.
Local Arguments Nat.eqb : simpl never.

(** ** Agreement: unless [c1] panics, [c2] is the same. *)
Definition unless_panic {A} (c1 c2 : comp A) : Prop := c1 <> Panic -> c2 = c1.

Lemma up_refl {A} (c : comp A) : unless_panic c c.
Proof. intros _. reflexivity. Qed.
Lemma up_bind {A B} (c1 c2 : comp A) (k1 k2 : A -> comp B) :
  unless_panic c1 c2 -> (forall a, unless_panic (k1 a) (k2 a)) -> unless_panic (bind c1 k1) (bind c2 k2).
Proof.
  intros H K N. destruct c1 as [a| | |]; cbn [bind] in *; try (rewrite H by discriminate; reflexivity).
  - rewrite H by discriminate. cbn [bind]. exact (K a N).
  - contradiction.
Qed.
Lemma up_sub usz a b : unless_panic (msub true usz a b) (msub false usz a b).
Proof. unfold msub. intros N. destruct (b <=? a); [reflexivity|contradiction]. Qed.
Lemma up_add usz a b : unless_panic (madd true usz a b) (madd false usz a b).
Proof. unfold madd. intros N. destruct (a + b <? usz); [reflexivity|contradiction]. Qed.

Record bw_le {W T E R} (B1 B2 : bwriter W T E R) : Prop := {
  le_cap : forall w, unless_panic (bw_capacity B1 w) (bw_capacity B2 w);
  le_len : forall w, unless_panic (bw_len B1 w) (bw_len B2 w);
  le_read : forall w i, unless_panic (bw_read B1 w i) (bw_read B2 w i);
  le_write : forall w i x, unless_panic (bw_write B1 w i x) (bw_write B2 w i x);
  le_set_len : forall w n, unless_panic (bw_set_len B1 w n) (bw_set_len B2 w n);
  le_advance : forall w, unless_panic (bw_advance B1 w) (bw_advance B2 w);
  le_cancel : forall w e, unless_panic (bw_cancel B1 w e) (bw_cancel B2 w e)
}.

Section Agree.
  Context {W T E R : Type} (B1 B2 : bwriter W T E R) (L : bw_le B1 B2) (room : W -> nat) (usz : nat).

  Lemma ag_read_range n : forall w i, unless_panic (read_range B1 w i n) (read_range B2 w i n).
  Proof.
    induction n as [|n IH]; intros w i; cbn [read_range]; [apply up_refl|].
    apply up_bind; [apply (le_read _ _ L)|]. intros x. apply up_bind; [apply IH|]. intros. apply up_refl.
  Qed.
  Lemma ag_write_range xs : forall w i, unless_panic (write_range B1 w i xs) (write_range B2 w i xs).
  Proof.
    induction xs as [|x xs IH]; intros w i; cbn [write_range]; [apply up_refl|].
    apply up_bind; [apply (le_write _ _ L)|]. intros w1. apply IH.
  Qed.
  Lemma ag_slice w : unless_panic (as_slice B1 w) (as_slice B2 w).
  Proof. apply up_bind; [apply (le_len _ _ L)|]. intros n. apply ag_read_range. Qed.
  Lemma ag_edit w f : unless_panic (edit_slice B1 w f) (edit_slice B2 w f).
  Proof. apply up_bind; [apply ag_slice|]. intros l. apply up_bind; [apply ag_write_range|]. intros w1. apply up_refl. Qed.
  Lemma ag_shrink w n : unless_panic (shrink_to B1 w n) (shrink_to B2 w n).
  Proof.
    apply up_bind; [apply (le_len _ _ L)|]. intros len. destruct (n <=? len); [|apply up_refl].
    destruct (n =? len); [apply up_refl|]. apply up_bind; [apply ag_read_range|]. intros _. apply (le_set_len _ _ L).
  Qed.
  Lemma ag_push w x : unless_panic (push_item B1 w x) (push_item B2 w x).
  Proof.
    apply up_bind; [apply (le_len _ _ L)|]. intros len. apply up_bind; [apply (le_cap _ _ L)|]. intros cap.
    destruct (len =? cap); [apply up_refl|]. apply up_bind; [apply (le_write _ _ L)|]. intros w1.
    apply up_bind; [apply (le_set_len _ _ L)|]. intros w2. apply up_refl.
  Qed.
  Lemma ag_fill w xs : unless_panic (fill_m true usz B1 room w xs) (fill_m false usz B2 room w xs).
  Proof.
    apply up_bind.
    - apply up_bind; [apply (le_len _ _ L)|]. intros len. apply up_bind; [apply (le_cap _ _ L)|]. intros cap.
      apply up_bind; [apply up_sub|]. intros n. apply up_refl.
    - intros [written spare]. cbv zeta. apply up_bind; [apply ag_write_range|]. intros w1.
      apply up_bind; [apply (le_set_len _ _ L)|]. intros w2. apply up_refl.
  Qed.
  Lemma ag_run {G} (p : wprog T E G) : forall w tr,
    unless_panic (run_writer_m true usz B1 room p w tr) (run_writer_m false usz B2 room p w tr).
  Proof.
    induction p as [x k IH|ys k IH|n k IH|k IH|k IH|k IH|f k IH|g0|e g0]; intros w tr; cbn [run_writer_m].
    - apply up_bind; [apply ag_push|]. intros [w1 ok]. apply IH.
    - apply up_bind; [apply ag_fill|]. intros [w1 m]. apply IH.
    - apply up_bind; [apply ag_shrink|]. intros w1. apply IH.
    - apply up_bind; [apply (le_len _ _ L)|]. intros m. apply IH.
    - apply up_bind; [apply (le_cap _ _ L)|]. intros m. apply IH.
    - apply up_bind; [apply ag_slice|]. intros m. apply IH.
    - apply up_bind; [apply ag_edit|]. intros [w1 m]. apply IH.
    - apply up_bind; [apply (le_advance _ _ L)|]. intros r. apply up_refl.
    - apply up_bind; [apply (le_cancel _ _ L)|]. intros r. apply up_refl.
  Qed.
End Agree.

Lemma request_le T E usz : bw_le (request_ops_m true usz T E) (request_ops_m false usz T E).
Proof. split; intros; cbn; try apply up_refl; apply up_sub. Qed.

Lemma ag_source {C W T E R G} (K1 K2 : control C W T E R) room usz c (a : sact T E G) :
  bw_le (ct_writer K1) (ct_writer K2) ->
  (forall c n, unless_panic (ct_request K1 c n) (ct_request K2 c n)) ->
  (forall c e, unless_panic (ct_cancel K1 c e) (ct_cancel K2 c e)) ->
  (forall c, unless_panic (ct_finish K1 c) (ct_finish K2 c)) ->
  unless_panic (run_source_m true usz K1 room c a) (run_source_m false usz K2 room c a).
Proof.
  intros L RQ CA FI. destruct a as [n p|g|e g]; cbn [run_source_m].
  - apply up_bind; [apply RQ|]. intros w. now apply ag_run.
  - apply up_bind; [apply FI|]. intros w. apply up_refl.
  - apply up_bind; [apply CA|]. intros w. apply up_refl.
Qed.

Lemma ag_request {T} usz grow (buf : vec T) n :
  unless_panic (request_writer_m true usz grow buf n) (request_writer_m false usz grow buf n).
Proof. apply up_bind; [apply up_sub|]. intros s. apply up_refl. Qed.

Lemma ag_load {T E G} usz (src : source T E G) grow l :
  unless_panic (load_m true usz src grow l) (load_m false usz src grow l).
Proof.
  apply up_bind; [|intros x; apply up_refl].
  apply ag_source; intros; try apply up_refl; [apply request_le|apply ag_request].
Qed.

Lemma ag_load_all {T E G} usz (src : source T E G) cs : forall l,
  unless_panic (load_all_m true usz src cs l) (load_all_m false usz src cs l).
Proof.
  induction cs as [|[grow|] cs IH]; intros l; cbn [load_all_m]; [apply up_refl| |].
  - apply up_bind; [apply ag_load|]. intros [[i l1] tr]. apply up_bind; [apply IH|]. intros [rs l2]. apply up_refl.
  - apply up_bind; [apply up_refl|]. intros l1. apply IH.
Qed.

Section UAgree.
  Context {C W E R : Type} (K1 K2 : control C W byte (uerror E) R) (usz : nat).
  Context (L : bw_le (ct_writer K1) (ct_writer K2)).
  Context (RQ : forall c n, unless_panic (ct_request K1 c n) (ct_request K2 c n)).
  Context (CA : forall c e, unless_panic (ct_cancel K1 c e) (ct_cancel K2 c e)).
  Context (FI : forall c, unless_panic (ct_finish K1 c) (ct_finish K2 c)).

  Lemma uwriter_le : bw_le (uwriter_ops_m true usz K1) (uwriter_ops_m false usz K2).
  Proof.
    split; intros; cbn [uwriter_ops_m bw_capacity bw_len bw_read bw_write bw_set_len bw_advance bw_cancel uwriter_ops].
    - apply up_bind; [apply (le_cap _ _ L)|]. intros; apply up_sub.
    - apply up_bind; [apply (le_len _ _ L)|]. intros; apply up_sub.
    - apply (le_read _ _ L).
    - apply up_bind; [apply (le_write _ _ L)|]. intros; apply up_refl.
    - apply up_bind; [apply (le_set_len _ _ L)|]. intros; apply up_refl.
    - unfold u_advance. apply up_bind; [now apply ag_slice|]. intros buf. cbv zeta.
      destruct (3 <? _).
      + apply up_bind; [apply (le_cancel _ _ L)|]. intros; apply up_refl.
      + apply up_bind; [now apply ag_shrink|]. intros q. apply up_bind; [apply (le_advance _ _ L)|]. intros; apply up_refl.
    - apply up_bind; [apply (le_cancel _ _ L)|]. intros; apply up_refl.
  Qed.

  Lemma ag_next {G} room (src : source byte E G) c v :
    unless_panic (validator_next_m true usz K1 room src c v) (validator_next_m false usz K2 room src c v).
  Proof.
    apply up_bind; [|intros x; apply up_refl]. apply ag_source.
    - exact uwriter_le.
    - intros c0 n. cbn [ct_request ucontrol_m]. unfold u_request_m. apply up_bind; [apply up_add|]. intros m.
      apply up_bind; [apply RQ|]. intros q. destruct (_ <=? _); [|apply up_refl].
      apply up_bind; [now apply ag_write_range|]. intros q1. apply up_bind; [apply (le_set_len _ _ L)|]. intros; apply up_refl.
    - intros c0 e. cbn [ct_cancel ucontrol_m ucontrol]. apply up_bind; [apply CA|]. intros; apply up_refl.
    - intros c0. cbn [ct_finish ucontrol_m ucontrol]. apply up_bind; [apply FI|]. intros; apply up_refl.
  Qed.
End UAgree.

Lemma ag_load_utf8 {E G} usz (src : source byte E G) grow l :
  unless_panic (load_utf8_m true usz src grow l) (load_utf8_m false usz src grow l).
Proof.
  apply up_bind; [|intros x; apply up_refl].
  apply ag_next; intros; try apply up_refl; [apply request_le|apply ag_request].
Qed.
Lemma ag_load_utf8_all {E G} usz (src : source byte E G) grow n : forall l,
  unless_panic (load_utf8_all_m true usz src grow n l) (load_utf8_all_m false usz src grow n l).
Proof.
  induction n as [|n IH]; intros l; cbn [load_utf8_all_m]; [apply up_refl|].
  apply up_bind; [apply ag_load_utf8|]. intros [[i l1] tr]. apply up_bind; [apply IH|]. intros [rs l2]. apply up_refl.
Qed.

(** ** With checks it is the model of C47-C55 *)
Section Link.
  Context {W T E R : Type} (B : bwriter W T E R) (room : W -> nat) (usz : nat) (sane : W -> Prop).
  Context (S_write : forall w i x w', sane w -> bw_write B w i x = Ret w' -> sane w').
  Context (S_set_len : forall w n w', bw_set_len B w n = Ret w' -> sane w').
  Context (S_cap : forall w n, sane w -> bw_capacity B w = Ret n -> n <= room w).

  Lemma ln_write_range xs : forall w i w', sane w -> write_range B w i xs = Ret w' -> sane w'.
  Proof.
    induction xs as [|x xs IH]; intros w i w' S H; cbn [write_range] in H; [injection H as <-; auto|].
    apply bind_ret in H as (w1 & H1 & H). eauto.
  Qed.
  Lemma ln_fill w xs : sane w -> fill_m true usz B room w xs = fill B w xs.
  Proof.
    intros S. unfold fill_m, fill, spare_capacity_m, spare_capacity.
    destruct (bw_len B w) as [written| | |]; cbn [bind]; try reflexivity.
    destruct (bw_capacity B w) as [cap| | |] eqn:C; cbn [bind]; try reflexivity.
    unfold msub, usub. destruct (Nat.leb_spec written cap) as [LE|GT]; cbn [bind]; [|reflexivity].
    pose proof (S_cap _ _ S C). rewrite (proj2 (Nat.leb_le _ _)) by lia. reflexivity.
  Qed.
  Lemma ln_run {G} (p : wprog T E G) : forall w tr, sane w ->
    run_writer_m true usz B room p w tr = run_writer B p w tr.
  Proof.
    induction p as [x k IH|ys k IH|n k IH|k IH|k IH|k IH|f k IH|g0|e g0]; intros w tr S; cbn [run_writer_m run_writer];
      try reflexivity.
    - destruct (push_item B w x) as [[w1 ok]| | |] eqn:P; cbn [bind]; try reflexivity. apply IH.
      unfold push_item in P. apply bind_ret in P as (len & _ & P). apply bind_ret in P as (cap & _ & P).
      destruct (len =? cap); [injection P as <- <-; exact S|].
      apply bind_ret in P as (w2 & P1 & P). apply bind_ret in P as (w3 & P2 & P). injection P as <- <-. eauto.
    - rewrite ln_fill by auto. destruct (fill B w ys) as [[w1 m]| | |] eqn:P; cbn [bind]; try reflexivity. apply IH.
      unfold fill in P. apply bind_ret in P as ([a b] & _ & P). cbv zeta in P. apply bind_ret in P as (w2 & P1 & P).
      apply bind_ret in P as (w3 & P2 & P). injection P as <- <-. eauto.
    - destruct (shrink_to B w n) as [w1| | |] eqn:P; cbn [bind]; try reflexivity. apply IH.
      unfold shrink_to in P. apply bind_ret in P as (len & _ & P). destruct (n <=? len); [|discriminate].
      destruct (n =? len); [injection P as <-; exact S|]. apply bind_ret in P as (l & _ & P). eauto.
    - destruct (bw_len B w); cbn [bind]; try reflexivity. auto.
    - destruct (bw_capacity B w); cbn [bind]; try reflexivity. auto.
    - destruct (as_slice B w); cbn [bind]; try reflexivity. auto.
    - destruct (edit_slice B w f) as [[w1 ys]| | |] eqn:P; cbn [bind]; try reflexivity. apply IH.
      unfold edit_slice in P. apply bind_ret in P as (l & _ & P). apply bind_ret in P as (w2 & P1 & P). injection P as <- <-.
      eapply ln_write_range; eauto.
  Qed.
End Link.

Definition rsane {T} (r : request T) : Prop := roffset r <= vlen (rbuf r) <= vcap (rbuf r).

Lemma rs_write {T E} r i (x : T) r' : rsane r -> bw_write (request_writer_ops T E) r i x = Ret r' -> rsane r'.
Proof.
  intros S H. cbn in H. apply bind_ret in H as (v & V & H). injection H as <-. unfold vec_write in V.
  destruct (_ <? _); [|discriminate]. injection V as <-. unfold rsane, vcap in *. cbn. rewrite set_length. exact S.
Qed.
Lemma rs_set_len {T E} (r : request T) n r' : bw_set_len (request_writer_ops T E) r n = Ret r' -> rsane r'.
Proof.
  intros H. cbn in H. apply bind_ret in H as (v & V & H). injection H as <-. apply set_len_cells in V as (-> & L).
  unfold rsane, vcap in *. cbn. lia.
Qed.
Lemma rs_cap {T E} (r : request T) n : rsane r -> bw_capacity (request_writer_ops T E) r = Ret n -> n <= request_room r.
Proof.
  intros S H. cbn in H. unfold usub in H. destruct (_ <=? _); [|discriminate]. injection H as <-.
  unfold rsane, request_room in *. lia.
Qed.

Lemma rs_request {T} grow (buf : vec T) n r : vlen buf <= vcap buf -> request_writer grow buf n = Ret r -> rsane r.
Proof.
  intros V H. unfold request_writer in H. apply bind_ret in H as (s & _ & H). destruct (n <=? s); injection H as <-.
  - unfold rsane. cbn. lia.
  - unfold rsane. cbn. lia.
Qed.

Lemma holds_sane {T} (v : vec T) xs : holds v xs -> vlen v <= vcap v.
Proof. intros H. rewrite (holds_len _ _ H). now apply holds_cap. Qed.

(** The checked operations are convertible to those of M_GenSeq and M_Utf8. *)
Lemma ln_load {T E G} usz (src : source T E G) grow l : vlen (ld_buf l) <= vcap (ld_buf l) ->
  load_m true usz src grow l = load src grow l.
Proof.
  intros V. unfold load_m, load.
  assert (Q : run_source_m true usz (gcontrol_m true usz T E grow) request_room (ld_buf l) (src (ld_source l))
            = run_source (gcontrol T E grow) (ld_buf l) (src (ld_source l))).
  { destruct (src (ld_source l)) as [n p|g|e g]; cbn [run_source_m run_source]; [|reflexivity|reflexivity].
    change (ct_request (gcontrol_m true usz T E grow) (ld_buf l) n) with (request_writer grow (ld_buf l) n).
    change (ct_request (gcontrol T E grow) (ld_buf l) n) with (request_writer grow (ld_buf l) n).
    destruct (request_writer grow (ld_buf l) n) as [r| | |] eqn:RQ; cbn [bind]; try reflexivity.
    change (ct_writer (gcontrol_m true usz T E grow)) with (request_writer_ops T E).
    change (ct_writer (gcontrol T E grow)) with (request_writer_ops T E).
    apply (ln_run (request_writer_ops T E) request_room usz rsane).
    - intros; eapply rs_write; eauto.
    - intros; eapply rs_set_len; eauto.
    - intros; eapply rs_cap; eauto.
    - eapply rs_request; eauto. }
  rewrite Q. destruct (run_source _ _ _) as [[[[[res buf] g] tr] en]| | |]; cbn [bind]; try reflexivity.
Qed.

Lemma ln_load_all {T E G} usz (src : source T E G) cs : forall l ss xs, linv l ss xs ->
  load_all_m true usz src cs l = load_all src cs l.
Proof.
  induction cs as [|[grow|] cs IH]; intros l ss xs I; cbn [load_all_m load_all]; [reflexivity| |].
  - rewrite ln_load by (eapply holds_sane; apply I).
    destruct (load src grow l) as [[[i l1] [tr en]]| | |] eqn:LD; cbn [bind]; try reflexivity.
    destruct (load_inv _ _ _ _ _ _ _ _ _ I LD) as (ss' & xs' & I' & _). now rewrite (IH _ _ _ I').
  - destruct (force_ok _ _ _ I) as (l1 & F & I' & _). rewrite F. cbn [bind]. eauto.
Qed.

Lemma ln_load_utf8 {E G} usz (src : source byte E G) grow l : vlen (ld_buf l) <= vcap (ld_buf l) ->
  buffered (ld_source l) <= 3 -> (forall n p, src (vsource (ld_source l)) = SRequest n p -> n + 3 < usz) ->
  load_utf8_m true usz src grow l = load_utf8 src grow l.
Proof.
  intros V B3 MO. unfold load_utf8_m, load_utf8.
  set (K := gcontrol byte (uerror E) grow).
  assert (Q : validator_next_m true usz (gcontrol_m true usz byte (uerror E) grow) request_room src (ld_buf l) (ld_source l)
            = validator_next K src (ld_buf l) (ld_source l)).
  { unfold validator_next_m, validator_next. set (v := ld_source l) in *.
    assert (Q : run_source_m true usz (ucontrol_m true usz (gcontrol_m true usz byte (uerror E) grow) (buffered v) (rest v))
                  (uwriter_room request_room) (ld_buf l) (src (vsource v))
                = run_source (ucontrol K (buffered v) (rest v)) (ld_buf l) (src (vsource v))).
    { destruct (src (vsource v)) as [n p|g|e g] eqn:SR; cbn [run_source_m run_source]; [|reflexivity|reflexivity].
      cbn [ct_request ucontrol_m ucontrol]. unfold u_request_m, u_request.
      unfold madd. rewrite (proj2 (Nat.ltb_lt _ _)) by (specialize (MO _ _ eq_refl); lia). cbn [bind].
      change (ct_request (gcontrol_m true usz byte (uerror E) grow)) with (fun (buf : vec byte) n => request_writer grow buf n).
      change (ct_request K) with (fun (buf : vec byte) n => request_writer grow buf n). cbv beta.
      destruct (request_writer grow (ld_buf l) (buffered v + n)) as [r| | |] eqn:RQ; cbn [bind]; try reflexivity.
      destruct (buffered v <=? length (rest v)); cbn [bind]; [|reflexivity].
      change (ct_writer (gcontrol_m true usz byte (uerror E) grow)) with (request_writer_ops byte (uerror E)).
      change (ct_writer K) with (request_writer_ops byte (uerror E)).
      destruct (write_range (request_writer_ops byte (uerror E)) r 0 (firstn (buffered v) (rest v))) as [r1| | |] eqn:WR; cbn [bind]; try reflexivity.
      destruct (bw_set_len (request_writer_ops byte (uerror E)) r1 (buffered v)) as [r2| | |] eqn:SL; cbn [bind]; try reflexivity.
      change (ct_writer (ucontrol_m true usz (gcontrol_m true usz byte (uerror E) grow) (buffered v) (rest v))) with (uwriter_ops K).
      change (ct_writer (ucontrol K (buffered v) (rest v))) with (uwriter_ops K).
      apply (ln_run (uwriter_ops K) (uwriter_room request_room) usz (fun w => rsane (uw_req w))).
      - intros w i x w' S H. cbn [uwriter_ops bw_write] in H. apply bind_ret in H as (r0 & H & H0). injection H0 as <-.
        cbn [uw_req]. eapply rs_write; [exact S|exact H].
      - intros w m w' H. cbn [uwriter_ops bw_set_len] in H. apply bind_ret in H as (r0 & H & H0). injection H0 as <-.
        cbn [uw_req]. eapply rs_set_len; exact H.
      - intros w m S H. cbn [uwriter_ops bw_capacity] in H. apply bind_ret in H as (c & H & H0).
        apply (rs_cap (E := uerror E)) in H; [|exact S]. unfold usub in H0. destruct (_ <=? _); [|discriminate].
        injection H0 as <-. unfold uwriter_room. lia.
      - cbn [uw_req]. eapply rs_set_len; exact SL. }
    rewrite Q. destruct (run_source _ _ _) as [[[[res g] tr] en]| | |]; cbn [bind]; try reflexivity.
    destruct res; reflexivity. }
  rewrite Q. destruct (validator_next _ _ _ _) as [[[[[res buf] v1] tr] en]| | |]; cbn [bind]; try reflexivity.
Qed.

Lemma ln_load_utf8_all {E G} usz (src : source byte E G) grow n : forall l ss xs held, modest usz src grow l -> ulinv l ss xs held ->
  load_utf8_all_m true usz src grow n l = load_utf8_all src grow n l.
Proof.
  induction n as [|n IH]; intros l ss xs held MO I; cbn [load_utf8_all_m load_utf8_all]; [reflexivity|].
  pose proof I as (_ & HB & VI).
  rewrite ln_load_utf8; [|eapply holds_sane; exact HB|destruct VI as (_ & <- & L3 & _); exact L3|].
  2:{ intros m p. exact (MO 0 [] l m p eq_refl). }
  destruct (load_utf8 src grow l) as [[[i l1] [tr en]]| | |] eqn:LD; cbn [bind]; try reflexivity.
  destruct (load_utf8_inv _ _ _ _ _ _ _ _ _ _ I LD) as (ss' & xs' & held' & I' & _).
  rewrite (IH l1 ss' xs' held'); auto. intros k rs l' m p H. eapply (MO (S k)). cbn [load_utf8_all]. rewrite LD. cbn [bind].
  rewrite H. reflexivity.
Qed.

(** ** What a program comes to *)
(** [at_ w xs]: the writer has written [xs]; it has [R] cells, [h] of them taken before. *)
Section Plays.
  Context {W T E Rs : Type} (checks : bool) (usz R h : nat) (B : bwriter W T E Rs) (room : W -> nat).
  Context (at_ : W -> list T -> Prop).
  Context (BIG : 2 * R <= usz) (H3 : h <= 3) (U8 : 8 <= usz).
  Context (A_le : forall w xs, at_ w xs -> h + length xs <= R).
  Context (A_len : forall w xs, at_ w xs -> bw_len B w = Ret (length xs)).
  Context (A_cap : forall w xs, at_ w xs -> bw_capacity B w = msub checks usz (R - h - length xs) h).
  Context (A_room : forall w xs, at_ w xs -> room w = R - h).
  Context (A_slice : forall w xs, at_ w xs -> as_slice B w = Ret xs).
  Context (A_out : forall w xs x, at_ w xs -> h + length xs = R -> bw_write B w (length xs) x = UB).
  Context (A_add : forall w xs zs, at_ w xs -> h + length xs + length zs <= R ->
    exists w1 w2, write_range B w (length xs) zs = Ret w1 /\ bw_set_len B w1 (length xs + length zs) = Ret w2 /\ at_ w2 (xs ++ zs)).
  Context (A_over : forall w xs zs, at_ w xs -> length zs = length xs ->
    exists w1, write_range B w 0 zs = Ret w1 /\ at_ w1 zs).
  Context (A_cut : forall w xs n, at_ w xs -> n < length xs ->
    exists l w2, read_range B w n (length xs - n) = Ret l /\ bw_set_len B w n = Ret w2 /\ at_ w2 (firstn n xs)).

  Lemma plays_ok {G} (p : wprog T E G) : forall w xs tr, at_ w xs -> accepted tr = xs ->
    match plays checks usz R h p xs with
    | Ret (ys, e) => exists w' tr', at_ w' ys /\ accepted tr' = ys /\
        run_writer_m checks usz B room p w tr = ends_as B w' e tr'
    | Panic => run_writer_m checks usz B room p w tr = Panic
    | UB => run_writer_m checks usz B room p w tr = UB
    | OutOfFuel => False
    end.
  Proof.
    induction p as [x k IH|ys k IH|n k IH|k IH|k IH|k IH|f k IH|g0|e g0]; intros w xs tr I A; cbn [run_writer_m plays];
      pose proof (A_le _ _ I) as LE.
    - unfold push_item. rewrite (A_len _ _ I). cbn [bind]. rewrite (A_cap _ _ I).
      assert (ADD : h + length xs < R -> exists w1 w2, bw_write B w (length xs) x = Ret w1 /\ bw_set_len B w1 (length xs + 1) = Ret w2 /\ at_ w2 (xs ++ [x])).
      { intros L. destruct (A_add w xs [x] I) as (w1 & w2 & E1 & E2 & I2); [cbn; lia|]. cbn [write_range length] in E1, E2.
        destruct (bw_write B w (length xs) x) as [w1'| | |]; cbn [bind] in E1; try discriminate. injection E1 as ->. eauto. }
      assert (GO : match (if h + length xs <? R then plays checks usz R h (k true) (xs ++ [x]) else UB) with
        | Ret (ys, e) => exists w' tr', at_ w' ys /\ accepted tr' = ys /\
            ('(w', ok) <- (w1 <- bw_write B w (length xs) x ;; w2 <- bw_set_len B w1 (length xs + 1) ;; Ret (w2, true)) ;;
             run_writer_m checks usz B room (k ok) w' (tr ++ [if ok then PushOk x else PushErr x])) = ends_as B w' e tr'
        | Panic => ('(w', ok) <- (w1 <- bw_write B w (length xs) x ;; w2 <- bw_set_len B w1 (length xs + 1) ;; Ret (w2, true)) ;;
             run_writer_m checks usz B room (k ok) w' (tr ++ [if ok then PushOk x else PushErr x])) = Panic
        | UB => ('(w', ok) <- (w1 <- bw_write B w (length xs) x ;; w2 <- bw_set_len B w1 (length xs + 1) ;; Ret (w2, true)) ;;
             run_writer_m checks usz B room (k ok) w' (tr ++ [if ok then PushOk x else PushErr x])) = UB
        | OutOfFuel => False
        end).
      { destruct (Nat.ltb_spec (h + length xs) R) as [L|L].
        - destruct (ADD L) as (w1 & w2 & E1 & E2 & I2). rewrite E1. cbn [bind]. rewrite E2. cbn [bind].
          apply IH; [exact I2|]. now rewrite accepted_snoc, A.
        - rewrite (A_out _ _ x I) by lia. reflexivity. }
      unfold msub. destruct (Nat.leb_spec h (R - h - length xs)) as [Q|Q].
      + cbn [bind]. rewrite (proj2 (Nat.ltb_ge R (2 * h + length xs))) by lia. rewrite andb_false_r.
        destruct (Nat.eqb_spec R (2 * h + 2 * length xs)) as [EQ|NE].
        * rewrite (proj2 (Nat.eqb_eq _ _)) by lia. cbn [bind]. apply IH; [exact I|]. now rewrite accepted_snoc, A.
        * rewrite (proj2 (Nat.eqb_neq _ _)) by lia. exact GO.
      + rewrite (proj2 (Nat.eqb_neq _ _)) by lia. rewrite (proj2 (Nat.ltb_lt R (2 * h + length xs))) by lia.
        destruct checks; cbn [andb bind]; [reflexivity|].
        rewrite (proj2 (Nat.eqb_neq _ _)) by lia. exact GO.
    - unfold fill_m, spare_capacity_m. rewrite (A_len _ _ I). cbn [bind]. rewrite (A_cap _ _ I), (A_room _ _ I).
      destruct (Nat.ltb_spec R (2 * h + 2 * length xs)) as [Q|Q].
      + unfold msub. destruct (Nat.leb_spec h (R - h - length xs)) as [L|L]; cbn [bind].
        * rewrite (proj2 (Nat.leb_gt _ _)) by lia. destruct checks; cbn [bind]; [reflexivity|].
          rewrite (proj2 (Nat.leb_gt _ _)) by lia. reflexivity.
        * destruct checks; cbn [bind]; [reflexivity|].
          rewrite (proj2 (Nat.leb_le _ _)) by lia. cbn [bind].
          rewrite (proj2 (Nat.leb_gt _ _)) by lia. reflexivity.
      + unfold msub. rewrite (proj2 (Nat.leb_le h _)) by lia. cbn [bind].
        rewrite (proj2 (Nat.leb_le (length xs) _)) by lia. cbn [bind].
        rewrite (proj2 (Nat.leb_le _ (R - h))) by lia. cbn [bind]. cbv zeta.
        replace (R - h - length xs - h - length xs) with (R - 2 * h - 2 * length xs) by lia.
        set (zs := firstn _ ys). assert (LZ : length zs <= R - 2 * h - 2 * length xs) by (unfold zs; rewrite firstn_length; lia).
        destruct (A_add w xs zs I) as (w1 & w2 & E1 & E2 & I2); [lia|]. rewrite E1. cbn [bind]. rewrite E2. cbn [bind].
        apply IH; [exact I2|]. rewrite accepted_snoc, A. cbn [accept]. f_equal.
        unfold zs. apply firstn_length_firstn.
    - unfold shrink_to. rewrite (A_len _ _ I). cbn [bind]. destruct (Nat.leb_spec n (length xs)) as [L|L]; [|reflexivity].
      destruct (Nat.eqb_spec n (length xs)) as [->|N].
      + cbn [bind]. rewrite firstn_all. apply IH; [exact I|]. rewrite accepted_snoc, A. cbn. apply firstn_all.
      + destruct (A_cut w xs n I) as (l & w2 & E1 & E2 & I2); [lia|]. rewrite E1. cbn [bind]. rewrite E2. cbn [bind].
        apply IH; [exact I2|]. now rewrite accepted_snoc, A.
    - rewrite (A_len _ _ I). cbn [bind]. apply IH; auto.
    - rewrite (A_cap _ _ I). unfold msub. destruct (Nat.ltb_spec R (2 * h + length xs)) as [Q|Q].
      + rewrite (proj2 (Nat.leb_gt _ _)) by lia. destruct checks; cbn [bind]; [reflexivity|].
        replace (usz + (R - h - length xs) - h) with (usz + R - 2 * h - length xs) by lia. apply IH; auto.
      + rewrite (proj2 (Nat.leb_le _ _)) by lia. cbn [bind].
        replace (R - h - length xs - h) with (R - 2 * h - length xs) by lia. apply IH; auto.
    - rewrite (A_slice _ _ I). cbn [bind]. apply IH; auto.
    - unfold edit_slice. rewrite (A_slice _ _ I). cbn [bind].
      destruct (A_over w xs (stored (f xs) xs) I) as (w1 & E1 & I1); [apply stored_length|]. rewrite E1. cbn [bind].
      apply IH; [exact I1|]. now rewrite accepted_snoc, A.
    - exists w, tr. auto.
    - exists w, tr. auto.
  Qed.
End Plays.

(** ** The writer of the generic sequence *)
Section Request.
  Context {T E : Type} (checks : bool) (usz : nat).
  Notation ops := (request_writer_ops T E).
  Notation opsm := (request_ops_m checks usz T E).
  Implicit Types (r : request T) (pre c : list T).

  Lemma msub_ok a b : b <= a -> msub checks usz a b = Ret (a - b).
  Proof. intros L. unfold msub. now rewrite (proj2 (Nat.leb_le _ _)). Qed.

  Lemma rm_len pre r c : rinv pre r c -> bw_len opsm r = Ret (length c).
  Proof. intros (H & O). cbn. rewrite (holds_len _ _ H), O, app_length, msub_ok by lia. f_equal. lia. Qed.
  Lemma rm_cap pre r c : rinv pre r c -> bw_capacity opsm r = Ret (vcap (rbuf r) - length (pre ++ c)).
  Proof. intros (H & O). cbn. pose proof (holds_cap _ _ H). rewrite (holds_len _ _ H), msub_ok by lia. reflexivity. Qed.
  Lemma rm_read pre r c : rinv pre r c -> forall n i, i + n <= length c -> read_range opsm r i n = Ret (firstn n (skipn i c)).
  Proof. intros I n i L. exact (r_read (E := E) _ _ _ I n i L). Qed.
  Lemma rm_slice pre r c : rinv pre r c -> as_slice opsm r = Ret c.
  Proof.
    intros I. unfold as_slice. rewrite (rm_len _ _ _ I). cbn [bind]. rewrite (rm_read _ _ _ I) by lia.
    cbn. now rewrite firstn_all.
  Qed.
  Lemma rm_out pre r c x : rinv pre r c -> vcap (rbuf r) <= length (pre ++ c) -> bw_write opsm r (length c) x = UB.
  Proof. intros (H & O) L. cbn. rewrite O, <- app_length, (write_out _ _ x H L). reflexivity. Qed.
  Lemma rm_write_past zs : forall r i, roffset r + i <= vcap (rbuf r) -> vcap (rbuf r) < roffset r + i + length zs ->
    write_range opsm r i zs = UB.
  Proof.
    induction zs as [|z zs IH]; intros r i L1 L2; cbn [length] in L2; [lia|]. cbn [write_range bw_write request_ops_m request_writer_ops].
    unfold vec_write. destruct (Nat.ltb_spec (roffset r + i) (vcap (rbuf r))) as [LT|GE]; [|reflexivity]. cbn [bind].
    apply IH; cbn [rbuf roffset]; unfold vcap in *; cbn [cells]; rewrite set_length; lia.
  Qed.
  Lemma rm_add pre r c zs : rinv pre r c -> length (pre ++ c) + length zs <= vcap (rbuf r) ->
    exists r1 r2, write_range opsm r (length c) zs = Ret r1 /\ bw_set_len opsm r1 (length c + length zs) = Ret r2
      /\ rinv pre r2 (c ++ zs) /\ to_append r2 = to_append r /\ vcap (rbuf r2) = vcap (rbuf r).
  Proof.
    intros ((rest & C & LN) & O) L.
    destruct (r_write_range (E := E) pre zs r c O (ex_intro _ rest C) L) as (r1 & E1 & T1 & O1 & C1 & rest1 & E2).
    destruct (r_set_len (E := E) pre (c ++ zs) r1 rest1 E2) as (r2 & E3 & I2 & T2 & C2); [congruence|].
    rewrite app_length in E3. exists r1, r2. split; [exact E1|]. split; [exact E3|]. split; [exact I2|]. split; congruence.
  Qed.
  Lemma rm_over pre r held c zs : rinv pre r (held ++ c) -> length zs = length c ->
    exists r1, write_range opsm r (length held) zs = Ret r1 /\ rinv pre r1 (held ++ zs)
      /\ to_append r1 = to_append r /\ vcap (rbuf r1) = vcap (rbuf r).
  Proof.
    intros ((rest & C & LN) & O) L.
    destruct (r_write_range (E := E) pre zs r held O) as (r1 & E1 & T1 & O1 & C1 & rest1 & E2).
    - exists (map Some c ++ rest). now rewrite C, !map_app, <- !app_assoc.
    - unfold vcap. rewrite C, !app_length, map_length, !app_length. lia.
    - exists r1. split; [exact E1|]. split; [|auto]. split; [|congruence]. exists rest1. split; [exact E2|].
      rewrite (write_range_vlen (E := E) _ _ _ _ E1), LN, !app_length. lia.
  Qed.
  Lemma rm_cut pre r c n : rinv pre r c -> n <= length c ->
    exists r2, bw_set_len opsm r n = Ret r2 /\ rinv pre r2 (firstn n c) /\ to_append r2 = to_append r /\ vcap (rbuf r2) = vcap (rbuf r).
  Proof.
    intros ((rest & C & LN) & O) L.
    destruct (r_set_len (E := E) pre (firstn n c) r (map Some (skipn n c) ++ rest)) as (r2 & E3 & I2 & T2 & C2); auto.
    { rewrite C, app_assoc, <- map_app, <- app_assoc, firstn_skipn. reflexivity. }
    rewrite firstn_length, Nat.min_l in E3 by auto. exists r2. auto.
  Qed.
  Lemma rm_shrink pre r c n : rinv pre r c -> n <= length c ->
    exists r2, shrink_to opsm r n = Ret r2 /\ rinv pre r2 (firstn n c) /\ to_append r2 = to_append r /\ vcap (rbuf r2) = vcap (rbuf r).
  Proof.
    intros I L. unfold shrink_to. rewrite (rm_len _ _ _ I). cbn [bind]. rewrite (proj2 (Nat.leb_le _ _)) by auto.
    destruct (Nat.eqb_spec n (length c)) as [->|N]; [exists r; rewrite firstn_all; auto|].
    rewrite (rm_read _ _ _ I) by lia. cbn [bind]. now apply rm_cut.
  Qed.

  Lemma request_m_ok grow (v : vec T) n : vlen v <= vcap v -> request_writer_m checks usz grow v n = request_writer grow v n.
  Proof.
    intros L. unfold request_writer_m, request_writer, usub. rewrite msub_ok, (proj2 (Nat.leb_le _ _)) by auto. reflexivity.
  Qed.

  Lemma request_plays {G} (p : wprog T E G) pre r tr : rinv pre r [] -> accepted tr = [] ->
    2 * (vcap (rbuf r) - length pre) <= usz -> 8 <= usz ->
    match plays checks usz (vcap (rbuf r) - length pre) 0 p [] with
    | Ret (ys, e) => exists r' tr', rinv pre r' ys /\ to_append r' = to_append r /\ vcap (rbuf r') = vcap (rbuf r)
        /\ accepted tr' = ys /\ run_writer_m checks usz opsm request_room p r tr = ends_as opsm r' e tr'
    | Panic => run_writer_m checks usz opsm request_room p r tr = Panic
    | UB => run_writer_m checks usz opsm request_room p r tr = UB
    | OutOfFuel => False
    end.
  Proof.
    intros I A BIG U8.
    set (V := vcap (rbuf r)) in *.
    set (at_ := fun (q : request T) c => rinv pre q c /\ to_append q = to_append r /\ vcap (rbuf q) = V).
    assert (PV : length pre <= V) by (destruct I as (H & _); apply holds_cap in H; rewrite app_nil_r in H; exact H).
    assert (P : match plays checks usz (V - length pre) 0 p [] with
      | Ret (ys, e) => exists r' tr', at_ r' ys /\ accepted tr' = ys /\ run_writer_m checks usz opsm request_room p r tr = ends_as opsm r' e tr'
      | Panic => run_writer_m checks usz opsm request_room p r tr = Panic
      | UB => run_writer_m checks usz opsm request_room p r tr = UB
      | OutOfFuel => False
      end).
    { apply (plays_ok checks usz (V - length pre) 0 opsm request_room at_); auto; try lia.
      - intros w xs (J & _ & VC). destruct J as (J & _). apply holds_cap in J. rewrite app_length in J. lia.
      - intros w xs (J & _). exact (rm_len _ _ _ J).
      - intros w xs (J & _ & VC). rewrite (rm_cap _ _ _ J), msub_ok by lia. rewrite app_length, VC. f_equal. lia.
      - intros w xs ((_ & O) & _ & VC). unfold request_room. rewrite O, VC. lia.
      - intros w xs (J & _). exact (rm_slice _ _ _ J).
      - intros w xs x (J & _ & VC) L. apply (rm_out _ _ _ _ J). rewrite app_length. lia.
      - intros w xs zs (J & TA & VC) L. destruct (rm_add _ _ _ zs J) as (r1 & r2 & A1 & A2 & A3 & A4 & A5); [rewrite app_length; lia|].
        exists r1, r2. repeat split; auto; try congruence; apply A3.
      - intros w xs zs (J & TA & VC) L. destruct (rm_over _ _ [] _ _ J L) as (r1 & A1 & A2 & A3 & A4).
        exists r1. split; [exact A1|]. split; [exact A2|split; congruence].
      - intros w xs n (J & TA & VC) L. destruct (rm_cut _ _ _ n J) as (r2 & A2 & A3 & A4 & A5); [lia|].
        exists (firstn (length xs - n) (skipn n xs)), r2. rewrite (rm_read _ _ _ J) by lia.
        repeat split; auto; try congruence; apply A3.
      - split; [exact I|auto]. }
    destruct (plays checks usz (V - length pre) 0 p []) as [[ys e]| | |]; auto.
    destruct P as (r' & tr' & (J & TA & VC) & A' & Q). exists r', tr'. auto.
  Qed.
End Request.

(** ** The writer of Utf8Validator over it *)
Section UWriter.
  Context {E : Type} (checks : bool) (usz : nat) (grow : nat -> nat).
  Notation Km := (gcontrol_m checks usz byte (uerror E) grow).
  Notation opsm := (request_ops_m checks usz byte (uerror E)).
  Notation uopsm := (uwriter_ops_m checks usz Km).
  Implicit Types (w : uwriter (request byte)).

  Lemma um_read_range n : forall w i, read_range uopsm w i n = read_range opsm (uw_req w) (uw_buffered w + i) n.
  Proof.
    induction n as [|n IH]; intros w i; [reflexivity|]. cbn [read_range].
    change (bw_read uopsm w i) with (bw_read opsm (uw_req w) (uw_buffered w + i)).
    destruct (bw_read opsm _ _); cbn [bind]; try reflexivity. rewrite IH. now rewrite Nat.add_succ_r.
  Qed.
  Lemma um_write_range zs : forall w i, write_range uopsm w i zs =
    (r <- write_range opsm (uw_req w) (uw_buffered w + i) zs ;; Ret (UWriter (uw_buffered w) r)).
  Proof.
    induction zs as [|z zs IH]; intros w i; [destruct w; reflexivity|]. cbn [write_range].
    change (bw_write uopsm w i z) with (r <- bw_write opsm (uw_req w) (uw_buffered w + i) z ;; Ret (UWriter (uw_buffered w) r)).
    destruct (bw_write opsm _ _ _) as [r| | |]; cbn [bind]; try reflexivity. rewrite IH. cbn [uw_req uw_buffered].
    now rewrite Nat.add_succ_r.
  Qed.

  Lemma uwriter_plays {G} (p : wprog byte E G) pre held w tr : uinv pre held w [] -> accepted tr = [] -> length held <= 3 ->
    2 * (vcap (rbuf (uw_req w)) - length pre) <= usz -> 8 <= usz ->
    match plays checks usz (vcap (rbuf (uw_req w)) - length pre) (length held) p [] with
    | Ret (ys, e) => exists w' tr', uinv pre held w' ys /\ to_append (uw_req w') = to_append (uw_req w)
        /\ vcap (rbuf (uw_req w')) = vcap (rbuf (uw_req w))
        /\ accepted tr' = ys /\ run_writer_m checks usz uopsm (uwriter_room request_room) p w tr = ends_as uopsm w' e tr'
    | Panic => run_writer_m checks usz uopsm (uwriter_room request_room) p w tr = Panic
    | UB => run_writer_m checks usz uopsm (uwriter_room request_room) p w tr = UB
    | OutOfFuel => False
    end.
  Proof.
    intros I A L3 BIG U8.
    set (V := vcap (rbuf (uw_req w))) in *.
    set (at_ := fun q c => uinv pre held q c /\ to_append (uw_req q) = to_append (uw_req w) /\ vcap (rbuf (uw_req q)) = V).
    assert (P : match plays checks usz (V - length pre) (length held) p [] with
      | Ret (ys, e) => exists w' tr', at_ w' ys /\ accepted tr' = ys /\ run_writer_m checks usz uopsm (uwriter_room request_room) p w tr = ends_as uopsm w' e tr'
      | Panic => run_writer_m checks usz uopsm (uwriter_room request_room) p w tr = Panic
      | UB => run_writer_m checks usz uopsm (uwriter_room request_room) p w tr = UB
      | OutOfFuel => False
      end).
    { assert (LEN : forall q c, at_ q c -> length pre + length held + length c <= V).
      { intros q c (((J & _) & _) & _ & VC). apply holds_cap in J. rewrite !app_length in J. lia. }
      apply (plays_ok checks usz (V - length pre) (length held) uopsm (uwriter_room request_room) at_); auto.
      - intros q c J. apply LEN in J. lia.
      - intros q c ((J & B) & _ & VC). cbn [bw_len uwriter_ops_m ct_writer gcontrol_m]. rewrite (rm_len checks usz _ _ _ J). cbn [bind].
        rewrite B, app_length, msub_ok by lia. f_equal. lia.
      - intros q c J. pose proof (LEN _ _ J). destruct J as ((J & B) & _ & VC). cbn [bw_capacity uwriter_ops_m ct_writer gcontrol_m].
        rewrite (rm_cap checks usz _ _ _ J). cbn [bind]. rewrite B, VC, !app_length. f_equal. lia.
      - intros q c J. pose proof (LEN _ _ J). destruct J as (((_ & O) & B) & _ & VC). unfold uwriter_room, request_room. rewrite O, B, VC. lia.
      - intros q c ((J & B) & _ & VC). unfold as_slice. cbn [bw_len uwriter_ops_m ct_writer gcontrol_m].
        rewrite (rm_len checks usz _ _ _ J). cbn [bind]. rewrite B, app_length, msub_ok by lia. cbn [bind].
        rewrite um_read_range, B, (rm_read checks usz _ _ _ J) by (rewrite app_length; lia).
        rewrite Nat.add_0_r, skipn_length_app. f_equal. apply firstn_all2. lia.
      - intros q c x ((J & B) & _ & VC) L.
        change (bw_write uopsm q (length c) x) with (r <- bw_write opsm (uw_req q) (uw_buffered q + length c) x ;; Ret (UWriter (uw_buffered q) r)).
        rewrite B, <- app_length, (rm_out checks usz _ _ _ x J); [reflexivity|]. rewrite !app_length. lia.
      - intros q c zs J0 L. pose proof (LEN _ _ J0). destruct J0 as ((J & B) & TA & VC).
        destruct (rm_add (E := uerror E) checks usz _ _ _ zs J) as (r1 & r2 & A1 & A2 & A3 & A4 & A5); [rewrite !app_length; lia|].
        exists (UWriter (uw_buffered q) r1), (UWriter (uw_buffered q) r2).
        rewrite um_write_range, B, <- app_length, A1. cbn [bind]. split; [reflexivity|].
        change (bw_set_len uopsm (UWriter (length held) r1) (length c + length zs))
          with (r <- bw_set_len opsm r1 (length c + length zs + length held) ;; Ret (UWriter (length held) r)).
        rewrite app_length in A2. replace (length c + length zs + length held) with (length held + length c + length zs) by lia.
        rewrite A2. cbn [bind]. split; [reflexivity|]. unfold at_. cbn [uw_req]. split; [|split; congruence].
        split; [|reflexivity]. cbn [uw_req]. rewrite app_assoc. exact A3.
      - intros q c zs ((J & B) & TA & VC) L.
        destruct (rm_over (E := uerror E) checks usz _ _ _ _ _ J L) as (r1 & A1 & A2 & A3 & A4).
        exists (UWriter (uw_buffered q) r1). rewrite um_write_range, B, Nat.add_0_r, A1. cbn [bind]. split; [reflexivity|].
        split; [split; [exact A2|reflexivity]|]. cbn [uw_req]. split; congruence.
      - intros q c n J0 L. pose proof (LEN _ _ J0). destruct J0 as ((J & B) & TA & VC).
        destruct (rm_cut (E := uerror E) checks usz _ _ _ (length held + n) J) as (r2 & A2 & A3 & A4 & A5); [rewrite app_length; lia|].
        eexists _, (UWriter (uw_buffered q) r2).
        rewrite um_read_range, B, (rm_read checks usz _ _ _ J) by (rewrite app_length; lia). split; [reflexivity|].
        change (bw_set_len uopsm q n) with (r <- bw_set_len opsm (uw_req q) (n + uw_buffered q) ;; Ret (UWriter (uw_buffered q) r)).
        rewrite B, (Nat.add_comm n), A2. cbn [bind]. split; [reflexivity|]. unfold at_. cbn [uw_req]. split; [|split; congruence].
        split; [|reflexivity]. cbn [uw_req]. rewrite firstn_app in A3. rewrite firstn_all2 in A3 by lia.
        replace (length held + n - length held) with n in A3 by lia. exact A3.
      - split; [exact I|auto]. }
    destruct (plays checks usz (V - length pre) (length held) p []) as [[ys e]| | |]; auto.
    destruct P as (r' & tr' & (J & TA & VC) & A' & Q). exists r', tr'. auto.
  Qed.

  Lemma um_request {G} (v : validator G) held buf xs n : vinv v held -> holds buf xs ->
    buffered v + n < usz -> length held + n <= grow (length held + n) ->
    exists w pre, u_request_m checks usz Km (buffered v) (rest v) buf n = Ret w /\ uinv pre held w []
      /\ vcap (rbuf (uw_req w)) - length pre = (if length held + n <=? vcap buf - length xs then vcap buf - length xs else grow (length held + n))
      /\ vcap (rbuf (uw_req w)) = (if length held + n <=? vcap buf - length xs then vcap buf else grow (length held + n))
      /\ (pre = xs /\ to_append (uw_req w) = vec_new \/ pre = [] /\ to_append (uw_req w) = buf).
  Proof.
    intros (F & L & B3 & Z) HB SM GR. unfold u_request_m, madd. rewrite (proj2 (Nat.ltb_lt _ _)) by auto. cbn [bind].
    cbn [ct_request gcontrol_m]. rewrite request_m_ok by (eapply holds_sane; exact HB).
    destruct (request_ok (T := byte) grow _ _ (buffered v + n) HB) as (r & RQ & CASE). rewrite RQ. cbn [bind].
    assert (LR : buffered v <= length (rest v)) by (rewrite <- F, firstn_length in L; lia).
    rewrite (proj2 (Nat.leb_le _ _)) by auto. rewrite F.
    pose proof (holds_cap _ _ HB) as HC.
    assert (X : exists pre, rinv pre r [] /\ length pre + length held <= vcap (rbuf r)
        /\ vcap (rbuf r) - length pre = (if length held + n <=? vcap buf - length xs then vcap buf - length xs else grow (length held + n))
        /\ vcap (rbuf r) = (if length held + n <=? vcap buf - length xs then vcap buf else grow (length held + n))
        /\ (pre = xs /\ to_append r = vec_new \/ pre = [] /\ to_append r = buf)).
    { rewrite <- L in CASE. destruct CASE as [(LE & I & TA & RB)|(LT & I & TA & VC)].
      - rewrite (proj2 (Nat.leb_le _ _)) by auto. exists xs. rewrite RB. split; [exact I|]. split; [lia|auto].
      - rewrite (proj2 (Nat.leb_gt _ _)) by auto. exists []. cbn [length]. rewrite Nat.sub_0_r, VC. split; [exact I|]. split; [lia|auto]. }
    destruct X as (pre & I & SP & SPE & VCE & CS).
    destruct (rm_add (E := uerror E) checks usz _ _ _ held I) as (r1 & r2 & A1 & A2 & A3 & A4 & A5); [rewrite app_nil_r; lia|].
    cbn [length] in A1, A2. cbn [ct_writer gcontrol_m]. rewrite A1. cbn [bind]. rewrite <- L. cbn [Nat.add] in A2. rewrite A2. cbn [bind].
    eexists _, pre. split; [reflexivity|]. cbn [uw_req]. rewrite A5, A4.
    split; [split; [rewrite app_nil_r; exact A3|reflexivity]|]. auto.
  Qed.

  (** [advance], and what the loader does with the answer. *)
  Lemma um_advance {G} (v : validator G) (l : loader byte (validator G)) ss xs held pre w c g tr :
    ld_source l = v -> committed l ss -> holds (ld_buf l) xs -> vinv v held ->
    uinv pre held w c -> (pre = xs /\ to_append (uw_req w) = vec_new \/ pre = [] /\ to_append (uw_req w) = ld_buf l) ->
    exists i l', (x <- (r <- u_advance Km w ;; Ret (upoll_m v (r, g, tr, EndAdvance))) ;; poll_m l x) = Ret (i, l', (tr, EndAdvance))
      /\ vsource (ld_source l') = g /\ vcap (ld_buf l') = vcap (rbuf (uw_req w))
      /\ exists ss' xs' held', ulinv l' ss' xs' held'.
  Proof.
    intros SV CO HB VI (I & B) CS. unfold u_advance. cbn [ct_writer gcontrol_m]. rewrite (rm_slice checks usz _ _ _ I). cbn [bind].
    cbv zeta. set (bs := held ++ c) in *.
    destruct (v_split bs) as (t & q & F & EQ & ZQ & LV & FV & SV2).
    assert (LE : valid_up_to bs <= length bs) by (rewrite LV, EQ, app_length; lia).
    destruct (Nat.ltb_spec 3 (length (skipn (valid_up_to bs) bs))) as [G3|L3].
    - cbn [bw_cancel request_ops_m request_writer_ops]. pose proof I as (HR & O).
      destruct (drain_ok _ _ (roffset (uw_req w)) HR) as (v' & -> & HV & VC); [rewrite O, app_length; lia|].
      cbn [bind upoll_m poll_m]. eexists _, _. split; [reflexivity|]. cbn. split; [reflexivity|]. split; [exact VC|].
      exists ss, (firstn (roffset (uw_req w)) (pre ++ bs)), held. split; [exact CO|]. split; [exact HV|].
      destruct v. exact VI.
    - destruct (rm_shrink (E := uerror E) checks usz _ _ _ (valid_up_to bs) I LE) as (r2 & -> & I2 & TA2 & VC2). cbn [bind].
      cbn [bw_advance request_ops_m request_writer_ops].
      assert (VI' : forall g0 : G, vinv (Validator (length (skipn (valid_up_to bs) bs))
        (skipn (valid_up_to bs) bs ++ repeat 0%N (3 - length (skipn (valid_up_to bs) bs))) g0) (skipn (valid_up_to bs) bs)).
      { intros g0. split; [cbn; apply firstn_length_app|]. split; [reflexivity|]. split; [exact L3|]. rewrite SV2. exact ZQ. }
      destruct (Nat.eqb_spec (vlen (to_append r2)) 0) as [Z0|Z0].
      + cbn [bind upoll_m poll_m]. eexists _, _. split; [reflexivity|]. cbn. split; [reflexivity|]. split; [exact VC2|].
        exists ss. eexists _, _. split; [exact CO|]. split; [exact (proj1 I2)|]. apply VI'.
      + destruct CS as [(-> & TA)|(-> & TA)]; [rewrite TA2, TA in Z0; cbn in Z0; contradiction|].
        rewrite TA2, TA. cbn [bind upoll_m poll_m]. rewrite (holds_items _ _ HB).
        destruct (commit_ok _ _ _ _ xs CO) as (h' & t' & E1 & C'). rewrite E1. cbn [bind].
        eexists _, _. split; [reflexivity|]. cbn. split; [reflexivity|]. split; [exact VC2|].
        exists (ss ++ [xs]). eexists _, _. split; [exact C'|]. split; [exact (proj1 I2)|]. apply VI'.
  Qed.
End UWriter.

(** ** Chunks of an iterator, without checks *)
Section Chunks.
  Context {T E G : Type} (usz R h : nat) (g : G).

  Lemma plays_even (half : nat) : R = 2 * h + 2 * half -> forall seg (xs : list T), length xs <= half ->
    plays (E := E) false usz R h (push_all seg (WAdvance g)) xs = Ret (xs ++ firstn (half - length xs) seg, Advances g).
  Proof.
    intros RE. induction seg as [|x seg IH]; intros xs L; cbn [push_all plays].
    - now rewrite firstn_nil, app_nil_r.
    - cbn [andb]. destruct (Nat.eqb_spec R (2 * h + 2 * length xs)) as [Q|Q].
      + rewrite IH by auto. replace (half - length xs) with 0 by lia. reflexivity.
      + rewrite (proj2 (Nat.ltb_lt _ _)) by lia. rewrite IH by (rewrite app_length; cbn; lia).
        rewrite app_length. cbn [length]. replace (half - length xs) with (S (half - (length xs + 1))) by lia.
        cbn [firstn]. now rewrite <- app_assoc.
  Qed.
  Lemma plays_odd : (forall k, R <> 2 * h + 2 * k) -> forall seg (xs : list T), h + length xs + length seg <= R ->
    plays (E := E) false usz R h (push_all seg (WAdvance g)) xs = Ret (xs ++ seg, Advances g).
  Proof.
    intros NE. induction seg as [|x seg IH]; intros xs L; cbn [push_all plays length] in *.
    - now rewrite app_nil_r.
    - cbn [andb]. rewrite (proj2 (Nat.eqb_neq _ _)) by apply NE. rewrite (proj2 (Nat.ltb_lt _ _)) by lia.
      rewrite IH by (rewrite app_length; cbn; lia). now rewrite <- app_assoc.
  Qed.
  Lemma plays_chunk (seg : list T) : h + length seg <= R ->
    plays (E := E) false usz R h (push_all seg (WAdvance g)) [] = Ret (kept_unchecked R h seg, Advances g).
  Proof.
    intros L. unfold kept_unchecked. destruct (Nat.leb_spec (2 * h) R) as [Q|Q]; cbn [andb].
    - destruct (Nat.even (R - 2 * h)) eqn:EV.
      + apply Nat.even_spec in EV as (half & EV).
        rewrite (plays_even half) by (cbn; lia). rewrite EV, Nat.mul_comm, Nat.div_mul by lia. cbn. now rewrite Nat.sub_0_r.
      + rewrite plays_odd; [reflexivity| |cbn; lia]. intros k RE.
        replace (R - 2 * h) with (2 * k) in EV by lia. rewrite Nat.even_mul in EV. discriminate.
    - rewrite plays_odd; [reflexivity|lia|cbn; lia].
  Qed.
End Chunks.

Section IterLoad.
  Context (usz : nat) (grow : nat -> nat) (U8 : 8 <= usz).
  Notation L := (loader byte (validator (list (list byte)))).

  Definition istate (l : L) : Prop :=
    (exists ss xs held, ulinv l ss xs held) /\ 2 * vcap (ld_buf l) <= usz /\ fits usz grow (vsource (ld_source l)).

  Lemma istate_new chunks : fits usz grow chunks -> istate (loader_new (validator_new chunks)).
  Proof. intros F. split; [exists [], [], []; apply ulinv_new|]. split; [cbn; lia|exact F]. Qed.

  Lemma load_chunk (l : L) seg more : istate l -> vsource (ld_source l) = seg :: more ->
    let h := buffered (ld_source l) in
    let spare := if h + length seg <=? vcap (ld_buf l) - vlen (ld_buf l)
                 then vcap (ld_buf l) - vlen (ld_buf l) else grow (h + length seg) in
    exists i l' tr, load_utf8_m false usz iterator_source grow l = Ret (i, l', (tr, EndAdvance))
      /\ accepted tr = kept_unchecked spare h seg /\ vsource (ld_source l') = more /\ istate l'.
  Proof.
    intros ((ss & xs & held & CO & HB & VI) & VB & FI) SR h spare.
    pose proof VI as (_ & LH & L3 & _).
    destruct (FI seg h) as (G1 & G2); [rewrite SR; left; reflexivity|exact L3|].
    destruct (um_request (E := Never) false usz grow (ld_source l) held (ld_buf l) xs (length seg) VI HB) as (w & pre & RQ & I & SP & VC & CS).
    { fold h. lia. }
    { rewrite LH. fold h. exact G1. }
    rewrite LH in SP, VC. fold h in SP, VC. rewrite <- (holds_len _ _ HB) in SP, VC. fold spare in SP.
    pose proof (holds_sane _ _ HB) as HS.
    assert (SB : h + length seg <= spare /\ 2 * spare <= usz).
    { unfold spare. destruct (Nat.leb_spec (h + length seg) (vcap (ld_buf l) - vlen (ld_buf l))); lia. }
    pose proof (uwriter_plays (E := Never) false usz grow (push_all seg (WAdvance more)) pre held w [] I eq_refl) as P.
    rewrite LH in P. fold h in P. rewrite SP in P. specialize (P L3 (proj2 SB) U8).
    rewrite plays_chunk in P by apply SB. destruct P as (w' & tr' & I' & TA & VC' & A & Q).
    destruct (um_advance (E := Never) false usz grow (ld_source l) l ss xs held pre w' (kept_unchecked spare h seg) more tr' eq_refl CO HB VI I')
      as (i & l' & R & SV & VB' & ss' & xs' & held' & UL).
    { rewrite TA. exact CS. }
    exists i, l', tr'. split; [|split; [exact A|split; [exact SV|]]].
    - unfold load_utf8_m, validator_next_m. rewrite SR. cbn [iterator_source run_source_m ct_request ucontrol_m].
      rewrite RQ. cbn [bind]. change (ct_writer (ucontrol_m false usz (gcontrol_m false usz byte (uerror Never) grow) (buffered (ld_source l)) (rest (ld_source l))))
        with (uwriter_ops_m (E := Never) false usz (gcontrol_m false usz byte (uerror Never) grow)).
      rewrite Q. cbn [ends_as]. cbn [bw_advance uwriter_ops_m].
      destruct (u_advance _ w'); exact R.
    - split; [eauto|]. split; [rewrite VB', VC', VC; destruct (_ <=? _); lia|].
      rewrite SV. intros s n IN. apply FI. rewrite SR. right. exact IN.
  Qed.

  Lemma load_end (l : L) : istate l -> vsource (ld_source l) = [] ->
    exists info l', load_utf8_m false usz iterator_source grow l = Ret (ROk info, l', ([], EndFinish))
      /\ is_done info = true /\ vsource (ld_source l') = [] /\ istate l'.
  Proof.
    intros ((ss & xs & held & CO & HB & VI) & VB & FI) SR.
    unfold load_utf8_m, validator_next_m. rewrite SR. cbn [iterator_source run_source_m ct_finish ucontrol_m ucontrol gcontrol_m bind upoll_m poll_m].
    rewrite (holds_items _ _ HB). destruct (commit_ok _ _ _ _ xs CO) as (h' & t' & E1 & C'). rewrite E1. cbn [bind].
    eexists _, _. split; [reflexivity|]. cbn. split; [reflexivity|]. split; [reflexivity|].
    split; [|split; [cbn; lia|intros s n []]]. exists (ss ++ [xs]), [], held. split; [exact C'|]. split; [apply holds_new|].
    destruct (ld_source l); exact VI.
  Qed.

  Lemma load_chunks n : forall l, istate l -> exists rs l', load_utf8_all_m false usz iterator_source grow n l = Ret (rs, l') /\ istate l'.
  Proof.
    induction n as [|n IH]; intros l I; cbn [load_utf8_all_m]; [eauto|].
    destruct (vsource (ld_source l)) as [|seg more] eqn:SR.
    - destruct (load_end l I SR) as (info & l1 & R & _ & _ & I1). rewrite R. cbn [bind].
      destruct (IH _ I1) as (rs & l2 & R2 & I2). rewrite R2. cbn [bind]. eauto.
    - destruct (load_chunk l seg more I SR) as (i & l1 & tr & R & _ & _ & I1). rewrite R. cbn [bind].
      destruct (IH _ I1) as (rs & l2 & R2 & I2). rewrite R2. cbn [bind]. eauto.
  Qed.
End IterLoad.
