(** * P_WriterUnwind: C94, items of the generic sequence whose destructors panic. *)
From Coq Require Import Lia Permutation.
From Verif Require Import L_GenSeq2 L_Unwind L_Writer L_WriterUnwind.

Local Arguments Nat.ltb : simpl never.
Local Arguments Nat.leb : simpl never.
Local Arguments Nat.eqb : simpl never.
Local Arguments Nat.mul : simpl never.
Local Arguments Nat.min : simpl never.

Section Writer.
  Context {T E G : Type} (panics : T -> bool).
  Implicit Types (v : vec T) (r : request T) (p : wprog T E G).

  (** What a run on a fresh writer has come to, when the loader's buffer kept [kept] and the
      writer took [moved] out of it. *)
  Definition comes_to (kept moved : list T) (a : account T) (t : tail_end E G) (out : uout T E G * list T) : Prop :=
    let all := gone a ++ held a ++ moved in
    match t with
    | TAnswers (Advances g) => exists res buf, out = (UAnswer res buf g, gone a) /\ holds buf (kept ++ held a)
        /\ match moved with
           | [] => res = Appended (length (kept ++ held a)) (vcap buf)
           | _ => exists b, res = Advanced b (length (kept ++ held a)) (vcap buf) /\ holds b moved
           end
    | TAnswers (Cancels x g) =>
        match bad panics (held a ++ moved) with
        | 0 => exists buf, out = (UAnswer (Canceled x) buf g, all) /\ holds buf kept
        | 1 => exists buf, out = (UUnwound buf, all) /\ holds buf kept
        | _ => exists log, out = (UAborted, log)
        end
    | TUnwinds k =>
        match bad panics moved with
        | 0 => exists buf, out = (UUnwound buf, gone a ++ moved)
            /\ (k = 0 -> holds buf (kept ++ held a))
            /\ (0 < k -> forall b, vec_drop panics b buf = UB)
        | _ => exists log, out = (UAborted, log)
        end
    | TAborts => exists log, out = (UAborted, log)
    end.

  Lemma vec_drop_holds b v xs : holds v xs -> vec_drop panics b v = Ret (drop_in_place panics b xs).
  Proof. intros (rest & C & L). unfold vec_drop. rewrite C, L, read_items_ok. reflexivity. Qed.

  Lemma bad_app xs ys : bad panics (xs ++ ys) = bad panics xs + bad panics ys.
  Proof. unfold bad. now rewrite filter_app, app_length. Qed.

  Lemma leave_is r log moved : holds (to_append r) moved ->
    match bad panics moved with
    | 0 => leave (E := E) (G := G) panics r log = Ret (UUnwound (rbuf r), log ++ moved)
    | _ => exists l, leave (E := E) (G := G) panics r log = Ret (UAborted, l)
    end.
  Proof.
    intros H. unfold leave. rewrite (vec_drop_holds _ _ _ H). cbn [bind]. pose proof (glue_true panics moved) as GL.
    destruct (bad panics moved) as [|b].
    - rewrite GL. reflexivity.
    - destruct GL as (l & ->). eauto.
  Qed.

  Lemma run_comes_to late p grow v held0 n r : holds v held0 -> request_writer grow v n = Ret r ->
    let fits := n <=? vcap v - length held0 in
    match owned panics late (if fits then vcap v - length held0 else grow n) p (Account [] [] []) with
    | Ret (a, t) => exists out, run_unwind panics (shrink_as (E := E) panics late) p r [] = Ret out
        /\ comes_to (if fits then held0 else []) (if fits then [] else held0) a t out
    | Panic => run_unwind panics (shrink_as (E := E) panics late) p r [] = Panic
    | UB => run_unwind panics (shrink_as (E := E) panics late) p r [] = UB
    | OutOfFuel => False
    end.
  Proof.
    intros H Q fits. destruct (request_ok (T := T) grow v held0 n H) as (r0 & R0 & CASE).
    rewrite Q in R0. injection R0 as <-.
    assert (X : exists kept moved, kept = (if fits then held0 else []) /\ moved = (if fits then [] else held0)
      /\ rinv kept r [] /\ holds (to_append r) moved
      /\ vcap (rbuf r) - length kept = if fits then vcap v - length held0 else grow n).
    { destruct CASE as [(L & I & TA & RB)|(L & I & TA & VC)]; unfold fits.
      - rewrite (proj2 (Nat.leb_le _ _)) by auto. exists held0, []. rewrite TA, RB. repeat split; auto. apply I. apply I. apply holds_new.
      - rewrite (proj2 (Nat.leb_gt _ _)) by auto. exists [], held0. rewrite TA. repeat split; auto. apply I. apply I. cbn [length]. lia. }
    destruct X as (kept & moved & <- & <- & I & HM & <-).
    pose proof (owned_ok (E := E) panics late p kept r (Account [] [] []) I) as O. cbv zeta in O. cbn [gone] in O.
    destruct (owned panics late _ p _) as [[a t]| | |]; auto. destruct t as [[g|x g]|k|].
    - destruct O as (r' & I' & TA & VC & ->). cbn [ends_unwind bw_advance request_writer_ops].
      rewrite <- TA in HM. destruct I' as (HB & _). rewrite (holds_len _ _ HM), (holds_len _ _ HB). destruct moved as [|m ms]; cbn [length].
      + change (0 =? 0) with true. cbn [bind]. eexists. split; [reflexivity|]. cbn [comes_to]. eauto.
      + change (S (length ms) =? 0) with false. cbn [bind]. eexists. split; [reflexivity|]. cbn [comes_to]. eauto 8.
    - destruct O as (r' & I' & TA & VC & ->). cbn [ends_unwind]. unfold cancel_unwind. rewrite (r_slice (E := E) _ _ _ I'). cbn [bind].
      rewrite <- TA in HM. destruct I' as (HB & OF). destruct (drain_ok _ _ (roffset r') HB) as (v' & D & HV & _); [rewrite OF, app_length; lia|].
      rewrite OF, firstn_length_app in HV. rewrite D. cbn [bind].
      cbn [comes_to]. rewrite bad_app. pose proof (glue_false panics (held a)) as GL. destruct (bad panics (held a)) as [|[|b]].
      + rewrite GL, (vec_drop_holds _ _ _ HM). cbn [bind Nat.add]. pose proof (glue_false panics moved) as GM.
        destruct (bad panics moved) as [|[|b]]; [rewrite GM; cbn [bind]; eauto 6..|].
        destruct GM as (l & ->). cbn [bind]. eauto.
      + rewrite GL. pose proof (leave_is (Request (to_append r') v' (roffset r')) (gone a ++ held a) _ HM) as LV. cbn [rbuf] in LV.
        cbn [Nat.add]. destruct (bad panics moved) as [|b].
        * rewrite LV. eexists. split; [reflexivity|]. exists v'. now rewrite <- app_assoc.
        * destruct LV as (l & ->). eauto.
      + destruct GL as (l & ->). cbn [Nat.add]. eauto.
    - destruct O as (r' & ((rest & C) & LN & _) & TA & ->). rewrite <- TA in HM. pose proof (leave_is r' (gone a) _ HM) as LV.
      cbn [comes_to]. destruct (bad panics moved) as [|b].
      + rewrite LV. eexists. split; [reflexivity|]. eexists. split; [reflexivity|]. split.
        * intros ->. exists rest. split; [exact C|]. rewrite LN. lia.
        * intros K b. unfold vec_drop. rewrite C, LN, read_items_stale; [reflexivity|lia|exact K].
      + destruct LV as (l & ->). eauto.
    - destruct O as (l & ->). cbn [comes_to]. eauto.
  Qed.
End Writer.

(** ** C94 *)
(** What holds as it is: this is what any source does with the writer, whichever destructors
    panic.  A [shrink_to] that unwinds leaves the buffer of the loader counting the items that
    were dropped, and dropping it then is undefined behaviour. *)
Theorem C94_program_partial {T E G} (panics : T -> bool) (p : wprog T E G) grow (v : vec T) held0 n (r : request T) :
  holds v held0 -> request_writer grow v n = Ret r ->
  let fits := n <=? vcap v - length held0 in
  match owned panics true (if fits then vcap v - length held0 else grow n) p (Account [] [] []) with
  | Ret (a, t) => exists out, run_unwind panics (shrink_unwind (E := E) panics) p r [] = Ret out
      /\ comes_to panics (if fits then held0 else []) (if fits then [] else held0) a t out
  | Panic => run_unwind panics (shrink_unwind (E := E) panics) p r [] = Panic
  | UB => run_unwind panics (shrink_unwind (E := E) panics) p r [] = UB
  | OutOfFuel => False
  end.
Proof. exact (run_comes_to panics true p grow v held0 n r). Qed.

(** Every item handed to the writer is held or dropped, once, unless the process aborts. *)
Theorem C94_account_partial {T E G} (panics : T -> bool) late room (p : wprog T E G) a t :
  owned panics late room p (Account [] [] []) = Ret (a, t) -> t <> TAborts -> Permutation (given_in a) (held a ++ gone a).
Proof.
  intros H NT. destruct (owned_account panics late room p _ _ _ H NT) as (ins & E1 & E2). cbn in E1, E2. now rewrite E1.
Qed.

(** With the length set before the items are dropped, as [Vec::truncate] does, the same holds
    with nothing counted that is gone: the buffer of the loader is always sound. *)
Theorem C94_repaired {T E G} (panics : T -> bool) (p : wprog T E G) grow (v : vec T) held0 n (r : request T) :
  holds v held0 -> request_writer grow v n = Ret r ->
  let fits := n <=? vcap v - length held0 in
  let kept := if fits then held0 else [] in
  let moved := if fits then [] else held0 in
  match owned panics false (if fits then vcap v - length held0 else grow n) p (Account [] [] []) with
  | Ret (a, t) => exists out, run_unwind panics (shrink_repaired (E := E) panics) p r [] = Ret out
      /\ comes_to panics kept moved a t out
      /\ forall buf log, out = (UUnwound buf, log) ->
           exists xs, holds buf (kept ++ xs) /\ Permutation (given_in a ++ moved) (xs ++ log)
  | Panic => run_unwind panics (shrink_repaired (E := E) panics) p r [] = Panic
  | UB => run_unwind panics (shrink_repaired (E := E) panics) p r [] = UB
  | OutOfFuel => False
  end.
Proof.
  intros H Q fits kept moved. pose proof (run_comes_to panics false p grow v held0 n r H Q) as R. cbv zeta in R.
  fold fits in R. fold kept moved in R. destruct (owned panics false _ p _) as [[a t]| | |] eqn:OW; auto.
  destruct R as (out & E1 & E2). exists out. split; [exact E1|]. split; [exact E2|]. intros buf log ->.
  assert (NT : t <> TAborts) by (intros ->; destruct E2 as (? & ?); discriminate).
  pose proof (C94_account_partial _ _ _ _ _ _ OW NT) as AC.
  destruct t as [[g|x g]|k|]; cbn [comes_to] in E2.
  - destruct E2 as (? & ? & X & _). discriminate.
  - destruct (bad panics (held a ++ moved)) as [|[|b]].
    + destruct E2 as (? & X & _). discriminate.
    + destruct E2 as (buf' & X & HB). injection X as -> ->. exists []. rewrite app_nil_r. split; [exact HB|].
      cbn [app]. rewrite app_assoc. apply Permutation_app_tail. rewrite AC. apply Permutation_app_comm.
    + destruct E2 as (? & X). discriminate.
  - assert (k = 0) as ->.
    { revert OW. generalize (if fits then vcap v - length held0 else grow n) (Account (T := T) [] [] []). clear. intros room a0. revert a0 a k.
      induction p as [x c IH|ys c IH|m c IH|c IH|c IH|c IH|f c IH|g0|e g0]; intros a0 a k; cbn [owned].
      - destruct (_ =? _); [apply IH|]. destruct (_ <? _); [apply IH|discriminate].
      - destruct (_ <? _); [discriminate|apply IH].
      - destruct (_ <=? _); [|discriminate]. cbv zeta. destruct (bad panics _) as [|[|?]]; [apply IH|congruence|congruence].
      - apply IH.
      - apply IH.
      - apply IH.
      - cbv zeta. destruct (bad panics _); [apply IH|congruence].
      - discriminate.
      - discriminate. }
    destruct (bad panics moved).
    + destruct E2 as (buf' & X & HB & _). injection X as -> ->. exists (held a). split; [auto|].
      rewrite app_assoc. apply Permutation_app_tail. exact AC.
    + destruct E2 as (? & X). discriminate.
  - congruence.
Qed.

(** When no destructor panics, this is the writer of C49. *)
Theorem C94_agrees {T E G} (panics : T -> bool) late room (p : wprog T E G) a : (forall x, panics x = false) ->
  match lossy room p (held a), owned panics late room p a with
  | Ret (ys, e), Ret (a', t) => held a' = ys /\ t = TAnswers e
  | Panic, Panic | UB, UB => True
  | _, _ => False
  end.
Proof.
  intros NP.
  assert (B0 : forall xs, bad panics xs = 0).
  { intros xs. unfold bad. induction xs as [|x xs IH]; cbn; [reflexivity|]. now rewrite NP. }
  assert (U : forall xs, until panics xs = length xs).
  { intros xs. induction xs as [|x xs IH]; cbn; [reflexivity|]. now rewrite NP, IH. }
  revert a. induction p as [x c IH|ys c IH|m c IH|c IH|c IH|c IH|f c IH|g0|e g0]; intros a; cbn [owned lossy].
  - destruct (_ =? _); [apply IH|]. destruct (_ <? _); [apply (IH true (Account _ _ _))|exact Logic.I].
  - destruct (_ <? _); [exact Logic.I|apply (IH _ (Account _ _ _))].
  - destruct (_ <=? _); [|exact Logic.I]. cbv zeta. rewrite B0. apply (IH (Account _ _ _)).
  - apply IH.
  - apply IH.
  - apply IH.
  - cbv zeta. rewrite B0, U. specialize (IH (Account (firstn (Nat.min (length (f (held a))) (length (held a))) (f (held a))
      ++ skipn (Nat.min (length (f (held a))) (length (held a))) (held a)) (given_in a ++ firstn (Nat.min (length (f (held a))) (length (held a))) (f (held a))) (gone a ++ firstn (Nat.min (length (f (held a))) (length (held a))) (held a)))).
    cbn [held] in IH.
    replace (stored (f (held a)) (held a)) with (firstn (Nat.min (length (f (held a))) (length (held a))) (f (held a))
      ++ skipn (Nat.min (length (f (held a))) (length (held a))) (held a)); [exact IH|].
    generalize (f (held a)) as xs. generalize (held a) as ys. clear. intros ys xs. unfold stored.
    destruct (Nat.le_ge_cases (length xs) (length ys)).
    + rewrite (Nat.min_l (length xs)) by lia. rewrite firstn_all, (firstn_all2 (n := length ys)) by lia. reflexivity.
    + rewrite (Nat.min_r (length xs)) by lia. rewrite (skipn_all2 (n := length ys)), (skipn_all2 (n := length xs)) by lia. reflexivity.
  - split; reflexivity.
  - split; reflexivity.
Qed.

(** ** Cases *)
(** Three items go in, all but one are to go; the second, an even one, panics. *)
Definition trims : wprog nat unit nat := WFill [1; 2; 3] (fun _ => WShrink 1 (WAdvance 0)).
Definition after_trims : request nat -> comp (uout nat unit nat * list nat) :=
  fun r => run_unwind Nat.even (shrink_unwind (E := unit) Nat.even) trims r [].

(** REFUTED: both items have been dropped, and are dropped again with the buffer. *)
Theorem C94_double_drop_refuted :
  exists r buf, request_writer (fun n => n) (vec_new (T := nat)) 4 = Ret r
    /\ after_trims r = Ret (UUnwound buf, [2; 3])
    /\ vec_drop Nat.even true buf = UB /\ vec_drop Nat.even false buf = UB.
Proof. do 2 eexists. split; [reflexivity|]. split; [vm_compute; reflexivity|]. split; vm_compute; reflexivity. Qed.

Example C94_case_repaired :
  exists r buf, request_writer (fun n => n) (vec_new (T := nat)) 4 = Ret r
    /\ run_unwind Nat.even (shrink_repaired (E := unit) Nat.even) trims r [] = Ret (UUnwound buf, [2; 3])
    /\ vec_drop Nat.even true buf = Ret ([1], Returns).
Proof. do 2 eexists. split; [reflexivity|]. split; vm_compute; reflexivity. Qed.

(** The loader's items 5 and 7 were moved out to make room; the source cancels, one item panics. *)
Example C94_case_cancel :
  exists r buf, request_writer (fun n => n) (Vec [Some 5; Some 7] 2) 4 = Ret r
    /\ run_unwind Nat.even (shrink_unwind (E := unit) Nat.even) (WFill [1; 2] (fun _ => WCancel tt 0)) r []
         = Ret (UUnwound buf, [1; 2; 5; 7])
    /\ vec_drop Nat.even true buf = Ret ([], Returns).
Proof. do 2 eexists. split; [reflexivity|]. split; vm_compute; reflexivity. Qed.

(** Two of them panic: the process aborts. *)
Example C94_case_abort :
  exists r, request_writer (fun n => n) (Vec [Some 5; Some 6] 2) 4 = Ret r
    /\ run_unwind Nat.even (shrink_unwind (E := unit) Nat.even) (WFill [1; 2] (fun _ => WCancel tt 0)) r []
         = Ret (UAborted, [1; 2; 5; 6]).
Proof. eexists. split; vm_compute; reflexivity. Qed.

(** Storing over the items stops after the first that panics; the buffer is sound. *)
Example C94_case_edit :
  exists r buf, request_writer (fun n => n) (vec_new (T := nat)) 4 = Ret r
    /\ run_unwind (E := unit) Nat.even (shrink_unwind (E := unit) Nat.even)
         (WFill [1; 2; 3] (fun _ => WEdit (map (fun x => x + 10)) (WAdvance 0))) r [] = Ret (UUnwound buf, [1; 2])
    /\ vec_drop Nat.odd true buf = Ret ([11], Aborts) /\ holds buf [11; 12; 3].
Proof.
  do 2 eexists. split; [reflexivity|]. split; [vm_compute; reflexivity|]. split; [vm_compute; reflexivity|].
  exists [None]. split; reflexivity.
Qed.

Example C94_case_account :
  owned (E := unit) Nat.even true 4 trims (Account [] [] []) = Ret (Account [1] [1; 2; 3] [2; 3], TUnwinds 2).
Proof. vm_compute. reflexivity. Qed.

Print Assumptions C94_program_partial.
Print Assumptions C94_account_partial.
Print Assumptions C94_repaired.
Print Assumptions C94_agrees.
Print Assumptions C94_double_drop_refuted.
