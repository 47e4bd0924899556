(** * P_Release: property C83, builds without overflow checks. *)
From Coq Require Import Lia.
From Verif Require Import L_Release.

(** What returns, or is undefined, with overflow checks is the same without them: any source,
    any history of loads. *)
Theorem C83_same_unless_panic {T E G} usz (src : source T E G) cs l :
  load_all_m true usz src cs l <> Panic -> load_all_m false usz src cs l = load_all_m true usz src cs l.
Proof. exact (ag_load_all usz src cs l). Qed.
Theorem C83_same_unless_panic_utf8 {E G} usz (src : source byte E G) grow n l :
  load_utf8_all_m true usz src grow n l <> Panic ->
  load_utf8_all_m false usz src grow n l = load_utf8_all_m true usz src grow n l.
Proof. exact (ag_load_utf8_all usz src grow n l). Qed.

(** With them it is the loader of C47-C49 and C55. *)
Theorem C83_checked_is_model {T E G} usz (src : source T E G) cs g :
  load_all_m true usz src cs (loader_new g) = load_all src cs (loader_new g).
Proof. exact (ln_load_all usz src cs _ _ _ (linv_new g)). Qed.
Theorem C83_checked_is_model_utf8 {E G} usz (src : source byte E G) grow n g : modest usz src grow (loader_new (validator_new g)) ->
  load_utf8_all_m true usz src grow n (loader_new (validator_new g)) = load_utf8_all src grow n (loader_new (validator_new g)).
Proof. intros MO. exact (ln_load_utf8_all usz src grow n _ _ _ _ MO (ulinv_new g)). Qed.

(** Either way, exactly what a program on a freshly requested writer comes to: what is kept, a
    panic, or undefined behaviour. *)
Theorem C83_program_partial {T E G} checks usz grow (v : vec T) held n r (p : wprog T E G) :
  holds v held -> request_writer_m checks usz grow v n = Ret r ->
  2 * vcap (rbuf r) <= usz -> 8 <= usz ->
  let ops := request_ops_m checks usz T E in
  match plays checks usz (request_room r) 0 p [] with
  | Ret (ys, e) => exists r' tr', as_slice ops r' = Ret ys /\ accepted tr' = ys
      /\ run_writer_m checks usz ops request_room p r [] = ends_as ops r' e tr'
  | Panic => run_writer_m checks usz ops request_room p r [] = Panic
  | UB => run_writer_m checks usz ops request_room p r [] = UB
  | OutOfFuel => False
  end.
Proof.
  intros H Q BIG U8 ops. rewrite request_m_ok in Q by (eapply holds_sane; exact H).
  destruct (request_ok (T := T) grow v held n H) as (r0 & R0 & CASE). rewrite Q in R0. injection R0 as <-.
  assert (X : exists pre, rinv pre r []) by (destruct CASE as [(_ & I & _)|(_ & I & _)]; eauto).
  destruct X as (pre & I). unfold request_room at 1. rewrite (proj2 I).
  pose proof (request_plays (E := E) checks usz p pre r [] I eq_refl) as P.
  assert (BIG' : 2 * (vcap (rbuf r) - length pre) <= usz) by lia. specialize (P BIG' U8).
  destruct (plays checks usz _ 0 p []) as [[ys e]| | |]; auto.
  destruct P as (r' & tr' & I' & _ & _ & A & R). exists r', tr'. split; [|auto]. exact (rm_slice (E := E) checks usz _ _ _ I').
Qed.

Theorem C83_program_utf8_partial {E G} checks usz grow (v : validator G) (buf : vec byte) held xs n (p : wprog byte E G) :
  firstn (buffered v) (rest v) = held -> length held = buffered v -> buffered v <= 3 -> valid_up_to held = 0 ->
  holds buf xs -> buffered v + n < usz -> buffered v + n <= grow (buffered v + n) -> 8 <= usz ->
  2 * vcap buf <= usz -> 2 * grow (buffered v + n) <= usz ->
  let K := gcontrol_m checks usz byte (uerror E) grow in
  let ops := uwriter_ops_m checks usz K in
  exists w, u_request_m checks usz K (buffered v) (rest v) buf n = Ret w /\
  match plays checks usz (request_room (uw_req w)) (buffered v) p [] with
  | Ret (ys, e) => exists w' tr', as_slice (ct_writer K) (uw_req w') = Ret (held ++ ys) /\ accepted tr' = ys
      /\ run_writer_m checks usz ops (uwriter_room request_room) p w [] = ends_as ops w' e tr'
  | Panic => run_writer_m checks usz ops (uwriter_room request_room) p w [] = Panic
  | UB => run_writer_m checks usz ops (uwriter_room request_room) p w [] = UB
  | OutOfFuel => False
  end.
Proof.
  intros F LH B3 Z HB SM GR U8 VB VG K ops.
  assert (VI : vinv v held) by (split; [exact F|auto]).
  destruct (um_request (E := E) checks usz grow v held buf xs n VI HB SM) as (w & pre & RQ & I & SP & VC & CS); [rewrite LH; exact GR|].
  exists w. split; [exact RQ|]. pose proof I as ((_ & O) & _).
  unfold request_room at 1. rewrite O.
  assert (BIG : 2 * (vcap (rbuf (uw_req w)) - length pre) <= usz).
  { assert (2 * vcap (rbuf (uw_req w)) <= usz) by (rewrite VC, LH; destruct (buffered v + n <=? vcap buf - length xs); assumption). lia. }
  pose proof (uwriter_plays (E := E) checks usz grow p pre held w [] I eq_refl) as P. rewrite LH in P.
  specialize (P B3 BIG U8). destruct (plays checks usz _ _ p []) as [[ys e]| | |]; auto.
  destruct P as (w' & tr' & (I' & _) & _ & _ & A & R). exists w', tr'. split; [|auto].
  exact (rm_slice (E := uerror E) checks usz _ _ _ I').
Qed.

(** A request that overflows with the bytes held back: a panic with checks; without, the small
    number it wraps to is asked for, and the held bytes go out of bounds if there is not room
    for them in what that gives. *)
Theorem C83_request_wraps_partial {E G} checks usz grow (v : validator G) (buf : vec byte) held xs n :
  firstn (buffered v) (rest v) = held -> length held = buffered v -> buffered v <= 3 ->
  holds buf xs -> n < usz -> usz <= buffered v + n ->
  let K := gcontrol_m checks usz byte (uerror E) grow in
  let m := buffered v + n - usz in
  let room := if m <=? vcap buf - length xs then vcap buf - length xs else grow m in
  let asked := u_request_m checks usz K (buffered v) (rest v) buf n in
  if checks then asked = Panic
  else if buffered v <=? room then exists w, asked = Ret w /\ request_room (uw_req w) = room
         /\ uw_buffered w = buffered v /\ as_slice (ct_writer K) (uw_req w) = Ret held
       else asked = UB.
Proof.
  intros F L B3 HB SM OV K m room asked. subst asked. unfold u_request_m, madd.
  rewrite (proj2 (Nat.ltb_ge _ _)) by auto. destruct checks; [reflexivity|]. cbn [bind]. fold m.
  subst K. cbn [ct_request gcontrol_m ct_writer]. rewrite request_m_ok by (eapply holds_sane; exact HB).
  destruct (request_ok (T := byte) grow _ _ m HB) as (r & RQ & CASE). rewrite RQ. cbn [bind].
  assert (LR : buffered v <= length (rest v)) by (rewrite <- F, firstn_length in L; lia).
  rewrite (proj2 (Nat.leb_le (buffered v) (length (rest v))) LR), F.
  pose proof (holds_cap _ _ HB) as HC.
  assert (X : exists pre, rinv pre r [] /\ length pre <= vcap (rbuf r) /\ vcap (rbuf r) - length pre = room).
  { unfold room. destruct CASE as [(LE & I & TA & RB)|(LT & I & TA & VC)].
    - rewrite (proj2 (Nat.leb_le _ _)) by auto. exists xs. rewrite RB. auto.
    - rewrite (proj2 (Nat.leb_gt _ _)) by auto. exists []. cbn [length]. rewrite Nat.sub_0_r, VC. split; [exact I|]. split; [lia|auto]. }
  destruct X as (pre & I & PL & RM). destruct (Nat.leb_spec (buffered v) room) as [LE|GT].
  - destruct (rm_add (E := uerror E) false usz _ _ _ held I) as (r1 & r2 & A1 & A2 & A3 & A4 & A5); [rewrite app_nil_r; lia|].
    cbn [length] in A1, A2. rewrite A1. cbn [bind]. rewrite <- L. cbn [Nat.add] in A2. rewrite A2. cbn [bind].
    eexists. split; [reflexivity|]. cbn [uw_req uw_buffered]. unfold request_room. rewrite A5, (proj2 A3).
    split; [exact RM|]. split; [reflexivity|]. exact (rm_slice (E := uerror E) false usz _ _ _ A3).
  - destruct I as (HI & O). rewrite (rm_write_past (E := uerror E) false usz held r 0); [reflexivity| |]; rewrite O; lia.
Qed.

(** Without checks an iterator of chunks through Utf8Validator never panics and never leaves the
    buffer; what is kept of each chunk is this. *)
Theorem C83_chunks_partial usz grow chunks n : 8 <= usz -> fits usz grow chunks ->
  exists rs l, load_utf8_all_m false usz iterator_source grow n (loader_new (validator_new chunks)) = Ret (rs, l) /\
    forall seg more, vsource (ld_source l) = seg :: more ->
    let h := buffered (ld_source l) in
    let spare := if h + length seg <=? vcap (ld_buf l) - vlen (ld_buf l)
                 then vcap (ld_buf l) - vlen (ld_buf l) else grow (h + length seg) in
    exists i l' tr, load_utf8_m false usz iterator_source grow l = Ret (i, l', (tr, EndAdvance))
      /\ accepted tr = kept_unchecked spare h seg /\ vsource (ld_source l') = more.
Proof.
  intros U8 F. destruct (load_chunks usz grow U8 n _ (istate_new usz grow U8 chunks F)) as (rs & l & R & I).
  exists rs, l. split; [exact R|]. intros seg more SR h spare.
  destruct (load_chunk usz grow U8 l seg more I SR) as (i & l' & tr & A & B & C & _). eauto 6.
Qed.

(** The claim fails.  A source that pushes two items where there is room for three and then asks
    for the spare capacity panics with checks; without, it is handed a slice outside the buffer. *)
Definition greedy : source nat unit unit :=
  fun g => SRequest 3 (WPush 1 (fun _ => WPush 2 (fun _ => WFill [3] (fun _ => WAdvance g)))).
Theorem C83_undefined_refuted : exists (src : source nat unit unit) grow,
  forall usz, 8 <= usz ->
  load_all_m true usz src [LLoad grow] (loader_new tt) = Panic /\ load_all_m false usz src [LLoad grow] (loader_new tt) = UB.
Proof.
  exists greedy, (fun n => n). intros usz U. replace usz with (8 + (usz - 8)) by lia. split; vm_compute; reflexivity.
Qed.

(** And "😀" cut after three bytes: a panic with checks, loaded whole without. *)
Definition smile : list (list byte) := [[0xF0; 0x9F; 0x98]; [0x80]]%N.
Theorem C83_differs_refuted : exists chunks grow, forall usz, 16 <= usz ->
  fits usz grow chunks /\
  load_utf8_all_m true usz iterator_source grow 2 (loader_new (validator_new chunks)) = Panic /\
  exists rs l, load_utf8_all_m false usz iterator_source grow 2 (loader_new (validator_new chunks)) = Ret (rs, l)
    /\ Forall load_ok rs /\ items (ld_buf l) = concat chunks.
Proof.
  exists smile, (fun n => n). intros usz U. replace usz with (16 + (usz - 16)) by lia.
  split; [intros seg n [<-|[<-|[]]] L; cbn [length]; lia|]. split; [vm_compute; reflexivity|].
  let r := eval vm_compute in (load_utf8_all_m false (16 + (usz - 16)) iterator_source (fun n => n) 2 (loader_new (validator_new smile))) in
  match r with Ret (?a, ?b) => exists a, b end.
  split; [vm_compute; reflexivity|]. split; [repeat (constructor; [eexists; reflexivity|]); constructor|]. reflexivity.
Qed.

(** ** Cases meeting the hypotheses *)
Definition busy : wprog nat unit nat :=
  WFill [1; 2; 3; 4; 5] (fun n => WShrink 1 (WPush 9 (fun _ => WCapacity (fun c => WSlice (fun l =>
    if length l <? c then WPush 8 (fun ok => if ok then WAdvance 0 else WCancel tt 1) else WCancel tt 2))))).
Example C83_program_case :
  plays false 100 4 0 busy [] = Ret ([1; 9], Cancels tt 2) /\ plays true 100 4 0 busy [] = Ret ([1; 9], Cancels tt 2)
  /\ request_writer_m false 100 (fun n => n) (Vec [Some 7; None; None; None; None] 1) 3
     = Ret (Request vec_new (Vec [Some 7; None; None; None; None] 1) 1).
Proof. repeat split. Qed.
Example C83_program_utf8_case :
  plays (E := unit) true 100 4 3 (WPush 5 (fun _ => WAdvance tt)) [] = Panic
  /\ plays (E := unit) false 100 4 3 (WPush 5 (fun _ => WAdvance tt)) [] = Ret ([5], Advances tt)
  /\ plays (E := unit) false 100 4 3 (WPush 5 (fun _ => WPush 6 (fun _ => WAdvance tt))) [] = UB
  /\ plays (E := unit) false 100 4 3 (WCapacity (fun c => WAdvance c)) [] = Ret ([] : list nat, Advances 98).
Proof. repeat split. Qed.
Example C83_request_wraps_case :
  let K := gcontrol_m false 100 byte (uerror unit) (fun n => n) in
  u_request_m false 100 K 3 [0xF0; 0x9F; 0x98]%N vec_new 97 = UB
  /\ exists w, u_request_m false 100 K 3 [0xF0; 0x9F; 0x98]%N (Vec [None; None; None; None] 0) 98 = Ret w.
Proof. split; [reflexivity|]. eexists. reflexivity. Qed.
Example C83_chunks_case : fits 100 (fun n => 2 * n) [[0xE3]; [0x81; 0x82]; []]%N.
Proof. intros seg n [<-|[<-|[<-|[]]]] L; cbn [length]; lia. Qed.
Example C83_modest_case : modest 100 iterator_source (fun n => n) (loader_new (validator_new [[0x61]]%N)).
Proof.
  intros k rs l' n p H S.
  assert (X : vsource (ld_source l') = [[0x61]]%N \/ vsource (ld_source l') = []).
  { destruct k as [|k]; [injection H as <- <-; auto|]. right.
    assert (END : forall k (l : loader byte (validator (list (list byte)))) rs l', vsource (ld_source l) = [] ->
      load_utf8_all iterator_source (fun n => n) k l = Ret (rs, l') -> vsource (ld_source l') = []).
    { clear. induction k as [|k IH]; intros l rs l' V H; cbn [load_utf8_all] in H; [injection H as <- <-; exact V|].
      apply bind_ret in H as ([[i l1] tr] & H1 & H). apply bind_ret in H as ([rs2 l2] & H2 & H). injection H as <- <-.
      apply (IH l1 rs2 l2); [|exact H2]. unfold load_utf8, validator_next in H1. rewrite V in H1.
      cbn in H1. apply bind_ret in H1 as ([h t] & _ & H1). injection H1 as <- <- <-. reflexivity. }
    cbn [load_utf8_all] in H. apply bind_ret in H as ([[i l1] tr] & H1 & H). apply bind_ret in H as ([rs2 l2] & H2 & H). injection H as <- <-.
    vm_compute in H1. injection H1 as <- <- <-. eapply END; [|exact H2]. reflexivity. }
  destruct X as [X|X]; rewrite X in S; cbn in S; [injection S as <- _; lia|discriminate].
Qed.

Print Assumptions C83_same_unless_panic.
Print Assumptions C83_same_unless_panic_utf8.
Print Assumptions C83_checked_is_model.
Print Assumptions C83_checked_is_model_utf8.
Print Assumptions C83_program_partial.
Print Assumptions C83_program_utf8_partial.
Print Assumptions C83_request_wraps_partial.
Print Assumptions C83_chunks_partial.
Print Assumptions C83_undefined_refuted.
Print Assumptions C83_differs_refuted.
