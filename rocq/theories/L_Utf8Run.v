(** * L_Utf8Run: all chunks of a source through a validator and the generic loader. *)
From Coq Require Import Lia.
From Verif Require Import L_Base L_Utf8Gen.
From Verif Require Import S_Utf8Run.

Local Arguments Nat.leb : simpl never.
Local Arguments Nat.even : simpl never.
Local Arguments Nat.div : simpl never.

(** ** Growth functions and the plain loader *)
Section Plain.
  Context {T : Type}.

  Lemma even_not_odd n : Nat.even n = true -> Nat.even (S n) = false.
  Proof. intros H. now rewrite Nat.even_succ, <- Nat.negb_even, H. Qed.

  Lemma kept_length spare (c : list T) : length (kept spare c) <= length c.
  Proof. unfold kept. destruct (Nat.even spare); [rewrite firstn_length; lia|lia]. Qed.
  Lemma keeps_length grow (chunks : list (list T)) : forall len cap, length (keeps grow len cap chunks) <= length (concat chunks).
  Proof.
    induction chunks as [|c cs IH]; intros len cap; cbn [keeps concat]; [auto|].
    destruct (if length c <=? cap - len then (len, cap) else (0, grow (length c))) as [l0 c0].
    rewrite !app_length. specialize (IH (l0 + length (kept (c0 - l0) c)) c0). pose proof (kept_length (c0 - l0) c). lia.
  Qed.

  Lemma odd_grow grow n : odd_growth grow -> 1 <= n ->
    n <= grow n <= S n /\ forall c : list T, length c = n -> kept (grow n) c = c.
  Proof.
    intros (G1 & G) L. destruct (Nat.eq_dec n 1) as [->|N1].
    - destruct G1 as [-> | ->]; (split; [lia|]); intros [|x [|y c]] E; try discriminate; reflexivity.
    - rewrite G by lia. unfold odd_up. destruct (Nat.even n) eqn:EV.
      + split; [lia|]. intros c _. unfold kept. now rewrite even_not_odd.
      + split; [lia|]. intros c _. unfold kept. now rewrite EV.
  Qed.
  Lemma kept_small spare (c : list T) : spare <= 1 -> length c <= spare -> kept spare c = c.
  Proof. intros S L. destruct spare as [|[|k]]; [|reflexivity|lia]. destruct c; [reflexivity|cbn in L; lia]. Qed.

  Lemma keeps_odd_growth grow (chunks : list (list T)) : odd_growth grow -> keeps grow 0 0 chunks = concat chunks.
  Proof.
    intros OG. assert (X : forall len cap, len <= cap <= S len -> keeps grow len cap chunks = concat chunks); [|apply X; lia].
    induction chunks as [|c cs IH]; intros len cap L; [reflexivity|]. cbn [keeps concat].
    destruct (Nat.leb_spec (length c) (cap - len)) as [LE|GT].
    - rewrite kept_small, IH by lia. reflexivity.
    - destruct (odd_grow grow (length c) OG) as (B & K); [lia|]. rewrite Nat.sub_0_r, K, IH by auto. reflexivity.
  Qed.

  (** One item at a time until two cells are left. *)
  Lemma keeps_fill grow (a : T) k : forall len cap cs, k + 2 <= cap - len ->
    keeps grow len cap (repeat [a] k ++ cs) = repeat a k ++ keeps grow (len + k) cap cs.
  Proof.
    induction k as [|k IH]; intros len cap cs L; [now rewrite Nat.add_0_r|].
    cbn [repeat app keeps length]. rewrite (proj2 (Nat.leb_le 1 (cap - len))) by lia.
    assert (K : kept (cap - len) [a] = [a]).
    { unfold kept. destruct (Nat.even (cap - len)); [|reflexivity].
      apply firstn_all2. cbn. apply (Nat.div_le_lower_bound _ 2 1); lia. }
    rewrite K. cbn [app length]. f_equal. rewrite IH by lia. do 2 f_equal. lia.
  Qed.

  (** Chunks of which a buffer that grows to [n + 2] cells or more for [n] items loses something. *)
  Definition overfull (a : T) (n g : nat) : list (list T) := repeat a n :: repeat [a] (g - n - 2) ++ [[a; a]].

  Lemma overfull_lost grow (a : T) n : 1 <= n -> n + 2 <= grow n ->
    length (keeps grow 0 0 (overfull a n (grow n))) < length (concat (overfull a n (grow n))).
  Proof.
    intros N1 G. unfold overfull. cbn [keeps concat]. rewrite repeat_length, Nat.sub_diag, (proj2 (Nat.leb_gt n 0)), Nat.sub_0_r by lia.
    rewrite !app_length, repeat_length.
    destruct (Nat.eq_dec (length (kept (grow n) (repeat a n))) n) as [Q|Q].
    - rewrite Q, keeps_fill by lia. rewrite concat_app, !app_length, repeat_length.
      cbn [keeps length]. rewrite (proj2 (Nat.leb_le 2 _)) by lia.
      assert (grow n - (0 + n + (grow n - n - 2)) = 2) as -> by lia.
      change (length (kept 2 [a; a] ++ [])) with 1. change (length (concat [[a; a]])) with 2.
      assert (LC : forall k, length (concat (repeat [a] k)) = k) by (induction k; cbn; auto). rewrite LC. lia.
    - pose proof (kept_length (grow n) (repeat a n)) as L. rewrite repeat_length in L.
      pose proof (keeps_length grow (repeat [a] (grow n - n - 2) ++ [[a; a]]) (0 + length (kept (grow n) (repeat a n))) (grow n)). lia.
  Qed.

  (** Any other growth loses something of chunks of one and the same item. *)
  Lemma growth_lost grow (a : T) : (forall n, n <= grow n) ->
    (forall chunks, Forall (fun x => x = a) (concat chunks) -> keeps grow 0 0 chunks = concat chunks) -> odd_growth grow.
  Proof.
    intros GR H.
    assert (REP : forall n, Forall (fun x => x = a) (repeat a n)).
    { intros n. apply Forall_forall. intros x. apply repeat_spec. }
    assert (B : forall n, 1 <= n -> grow n <= S n).
    { intros n N1. destruct (Nat.le_gt_cases (n + 2) (grow n)) as [G|G]; [exfalso|lia].
      pose proof (overfull_lost grow a n N1 G) as X. rewrite H in X; [lia|].
      unfold overfull. cbn [concat]. rewrite concat_app. apply Forall_app. split; [apply REP|]. apply Forall_app. split.
      - induction (grow n - n - 2); cbn; auto.
      - cbn. auto. }
    assert (ONE : forall n, 1 <= n -> kept (grow n) (repeat a n) = repeat a n).
    { intros n N1. specialize (H [repeat a n]). cbn [keeps concat] in H. rewrite !app_nil_r in H.
      rewrite repeat_length, Nat.sub_diag, (proj2 (Nat.leb_gt n 0)), Nat.sub_0_r in H by lia. cbn [keeps] in H. rewrite ?app_nil_r in H. apply H, REP. }
    split.
    - pose proof (GR 1). pose proof (B 1). lia.
    - intros n N2. specialize (ONE n). pose proof (GR n). pose proof (B n). unfold odd_up.
      apply (f_equal (@length T)) in ONE; [|lia]. unfold kept in ONE.
      destruct (Nat.even (grow n)) eqn:EG.
      + exfalso. rewrite firstn_length, repeat_length in ONE. apply Nat.even_spec in EG as (q & EQ). rewrite EQ in ONE.
        rewrite Nat.mul_comm, Nat.div_mul in ONE by lia. lia.
      + destruct (Nat.even n) eqn:EN.
        * destruct (Nat.eq_dec (grow n) n) as [E|E]; [rewrite E in EG; congruence|lia].
        * destruct (Nat.eq_dec (grow n) n) as [E|E]; [auto|]. assert (grow n = S n) as X by lia.
          rewrite X, Nat.even_succ, <- Nat.negb_even, EN in EG. discriminate.
  Qed.
End Plain.

(** ** The validator *)
Lemma kept_utf8_0 {T} spare (c : list T) : length c <= spare -> kept_utf8 spare 0 c = Some (kept spare c).
Proof.
  intros L. unfold kept_utf8, kept. destruct c as [|x c]; [now destruct (Nat.even spare); rewrite ?firstn_nil|].
  rewrite Nat.mul_0_r, Nat.sub_0_r. cbn [Nat.ltb]. rewrite (proj2 (Nat.ltb_ge spare 0)) by lia.
  destruct (Nat.even spare); [reflexivity|]. rewrite (proj2 (Nat.leb_le _ _)) by lia. reflexivity.
Qed.

Lemma whole_utf8 l : utf8 l -> firstn (valid_up_to l) l = l /\ skipn (valid_up_to l) l = [].
Proof. intros U. rewrite (v_utf8 _ U). split; [apply firstn_all|apply skipn_all]. Qed.

(** As long as no character is cut, it is the plain loader. *)
Lemma keeps_utf8_plain grow chunks : (forall n, n <= grow n) -> (forall n, Forall utf8 (map (firstn n) chunks)) ->
  forall len cap, len <= cap -> keeps_utf8 grow (cap - len) [] chunks = Some (keeps grow len cap chunks).
Proof.
  intros GR. induction chunks as [|c cs IH]; intros F len cap L; [reflexivity|]. cbn [keeps_utf8 keeps length Nat.add app].
  assert (F' : forall n, Forall utf8 (map (firstn n) cs)) by (intros n; specialize (F n); now inversion F).
  assert (U : forall s, utf8 (kept s c)).
  { intros s. unfold kept. destruct (Nat.even s).
    - specialize (F (s / 2)). now inversion F.
    - specialize (F (length c)). rewrite <- (firstn_all c). now inversion F. }
  destruct (Nat.leb_spec (length c) (cap - len)) as [LE|GT].
  - rewrite kept_utf8_0 by auto. destruct (whole_utf8 _ (U (cap - len))) as (-> & ->). cbn [length].
    rewrite (v_utf8 _ (U _)). rewrite (proj2 (Nat.leb_le 0 3)) by lia.
    rewrite <- Nat.sub_add_distr, IH; [reflexivity|exact F'|]. pose proof (kept_length (cap - len) c). lia.
  - pose proof (GR (length c)). rewrite kept_utf8_0, Nat.sub_0_r by auto. destruct (whole_utf8 _ (U (grow (length c)))) as (-> & ->).
    cbn [length]. rewrite (v_utf8 _ (U _)), (proj2 (Nat.leb_le 0 3)) by lia.
    rewrite IH; [reflexivity|exact F'|]. pose proof (kept_length (grow (length c)) c). lia.
Qed.

(** Chunks that end where a character does, and the right growth. *)
Lemma keeps_utf8_odd grow chunks : odd_growth grow -> Forall utf8 chunks ->
  forall spare, spare <= 1 -> keeps_utf8 grow spare [] chunks = Some (concat chunks).
Proof.
  intros OG F. induction F as [|c cs U F IH]; intros spare S; [reflexivity|]. cbn [keeps_utf8 concat length Nat.add app].
  destruct (Nat.leb_spec (length c) spare) as [LE|GT].
  - rewrite kept_utf8_0, kept_small by auto. destruct (whole_utf8 _ U) as (-> & ->). cbn [length].
    rewrite (proj2 (Nat.leb_le 0 3)), IH by lia. reflexivity.
  - destruct (odd_grow (T := byte) grow (length c) OG) as (B & K); [lia|]. rewrite kept_utf8_0, K by (auto; lia).
    destruct (whole_utf8 _ U) as (-> & ->). cbn [length]. rewrite (v_utf8 _ U).
    rewrite (proj2 (Nat.leb_le 0 3)), IH by lia. reflexivity.
Qed.

Lemma keeps_utf8_valid grow chunks : forall spare held t, keeps_utf8 grow spare held chunks = Some t -> utf8 t.
Proof.
  induction chunks as [|c cs IH]; intros spare held t H; cbn [keeps_utf8] in H.
  - injection H as <-. apply utf8_nil.
  - destruct (kept_utf8 _ (length held) c) as [k|]; [|discriminate].
    destruct (_ <=? 3); [|discriminate].
    destruct (keeps_utf8 grow _ _ cs) as [t0|] eqn:E; [|discriminate]. injection H as <-.
    apply utf8_app; [apply firstn_utf8|eauto].
Qed.

(** ** All loads *)
Section Run.
  Context (grow : nat -> nat) (GR : forall n, n <= grow n).

  Lemma ulinv_unique (l : loader byte (validator (list (list byte)))) ss xs held ss' xs' held' :
    ulinv l ss xs held -> ulinv l ss' xs' held' -> xs = xs' /\ held = held'.
  Proof.
    intros (_ & H & F & _) (_ & H' & F' & _). apply holds_items in H, H'. split; congruence.
  Qed.

  Lemma load_utf8_done (l : loader byte (validator (list (list byte)))) ss xs held : ulinv l ss xs held -> vsource (ld_source l) = [] ->
    exists info l', load_utf8 iterator_source grow l = Ret (ROk info, l', ([], EndFinish)) /\ is_done info = true
      /\ committed l' (ss ++ [xs]).
  Proof.
    intros (CO & HB & VI) S. unfold load_utf8, validator_next. rewrite S. cbn [iterator_source run_source].
    cbn [ct_finish ucontrol gcontrol bind]. rewrite (holds_items _ _ HB).
    destruct (commit_ok _ _ _ _ xs CO) as (h' & t' & E1 & C'). rewrite E1. cbn [bind].
    eexists _, _. split; [reflexivity|]. split; [reflexivity|exact C'].
  Qed.

  Lemma load_utf8_run chunks : forall (l : loader byte (validator (list (list byte)))) ss xs held,
    ulinv l ss xs held -> vsource (ld_source l) = chunks ->
    match keeps_utf8 grow (vcap (ld_buf l) - length xs) held chunks with
    | Some t => exists rs l' ss', load_utf8_all iterator_source grow (length chunks + 1) l = Ret (rs, l')
        /\ Forall load_ok rs /\ committed l' ss' /\ concat ss' = concat ss ++ xs ++ t
        /\ exists info rs0, rs = rs0 ++ [(ROk info, ([], EndFinish))] /\ is_done info = true
    | None => forall rs l', load_utf8_all iterator_source grow (length chunks + 1) l = Ret (rs, l') -> ~ Forall load_ok rs
    end.
  Proof.
    induction chunks as [|seg chunks IH]; intros l ss xs held I S.
    - cbn [keeps_utf8 length Nat.add load_utf8_all]. destruct (load_utf8_done l ss xs held I S) as (info & l' & E & D & C).
      rewrite E. cbn [bind]. eexists _, _, _. split; [reflexivity|]. split; [constructor; [now exists info|constructor]|].
      split; [exact C|]. split; [rewrite concat_app; cbn; now rewrite !app_nil_r|]. exists info, []. auto.
    - cbn [keeps_utf8 length Nat.add load_utf8_all].
      pose proof (load_utf8_chunk grow GR l ss xs held seg chunks I S) as L. cbv zeta in L. cbv zeta.
      set (spare := if _ <=? _ then _ else _) in *.
      destruct (kept_utf8 spare (length held) seg) as [k|].
      + destruct L as (i & l1 & tr & E & A & S1 & SP). rewrite E. cbn [bind].
        destruct (load_utf8_inv _ _ _ _ _ _ _ _ _ _ I E) as (ss1 & xs1 & held1 & I1 & P). rewrite A in P.
        destruct (Nat.leb_spec (length (skipn (valid_up_to (held ++ k)) (held ++ k))) 3) as [L3|L3].
        * assert (P' : (exists info, i = ROk info /\ is_done info = false)
            /\ concat ss1 ++ xs1 = (concat ss ++ xs) ++ firstn (valid_up_to (held ++ k)) (held ++ k)
            /\ held1 = skipn (valid_up_to (held ++ k)) (held ++ k)).
          { destruct P as [(_ & _ & _ & X)|P]; [lia|exact P]. }
          destruct P' as ((info & -> & _) & EQ & ->). pose proof I1 as (_ & HB & _).
          specialize (IH l1 ss1 xs1 _ I1 S1). rewrite <- (holds_len _ _ HB), SP in IH.
          destruct (keeps_utf8 grow (spare - valid_up_to (held ++ k)) _ chunks) as [t|]; cbn [option_map].
          -- destruct IH as (rs & l2 & ss2 & E2 & F2 & C2 & EQ2 & info2 & rs0 & LA & DN). rewrite E2. cbn [bind].
             eexists _, _, ss2. split; [reflexivity|]. split; [constructor; [now exists info|auto]|]. split; [auto|].
             split; [rewrite EQ2, app_assoc, EQ, <- !app_assoc; reflexivity|].
             exists info2. eexists (_ :: rs0). split; [rewrite LA; reflexivity|auto].
          -- intros rs l2 E2 F2. apply bind_ret in E2 as ([rs2 l3] & E2 & X). injection X as <- <-.
             inversion F2; subst. eapply IH; eauto.
        * assert (i = RErr InvalidSequence) as ->.
          { destruct P as [(X & _)|(_ & EQ & HE)]; [exact X|]. exfalso.
            destruct I1 as (_ & _ & (_ & LH & LB & _)). rewrite HE in LH. lia. }
          intros rs l2 E2 F2. apply bind_ret in E2 as ([rs2 l3] & E2 & X). injection X as <- <-.
          inversion F2 as [|? ? (info & X) _]; subst. discriminate.
      + intros rs l2 E2. rewrite L in E2. discriminate.
  Qed.
End Run.
