(** * L_Prim: proofs about the primitive parsers. *)
From Verif Require Export L_Base L_Seq M_Prim S_Prim.

Set Implicit Arguments.

Lemma ck_drop_spec {T} (segs : list (list T)) a b :
  concat segs = a ++ b -> exists segs', ck_drop (length a) segs = Some segs' /\ concat segs' = b.
Proof.
  revert a. induction segs as [|x segs IH]; intros a H; cbn in *.
  - symmetry in H. apply app_eq_nil in H. destruct H as [-> ->]. cbn. eauto.
  - destruct (Nat.leb_spec (length a) (length x)) as [Hle|Hlt].
    + eexists; split; [reflexivity|]. cbn.
      assert (skipn (length a) (x ++ concat segs) = b) as <- by (rewrite H; apply skipn_length_app).
      rewrite skipn_app. replace (length a - length x) with 0 by lia. reflexivity.
    + assert (a = x ++ skipn (length x) a) as Ha.
      { assert (firstn (length x) (a ++ b) = x) as Hx by (rewrite <- H; apply firstn_length_app).
        rewrite firstn_app in Hx. replace (length x - length a) with 0 in Hx by lia.
        cbn in Hx. rewrite app_nil_r in Hx. rewrite <- Hx at 1. symmetry. apply firstn_skipn. }
      rewrite Ha in H. rewrite <- app_assoc in H. apply app_inv_head in H.
      destruct (IH _ H) as [s' [H1 H2]].
      replace (length a - length x) with (length (skipn (length x) a)) by (rewrite skipn_length; lia).
      eauto.
Qed.

Lemma chunked_lawful {T} : lawful_items (S := chunked T) (T := T).
Proof.
  intros s a b H. unfold content in *. cbn in *.
  destruct (ck_drop_spec _ _ _ H) as [s' [H1 H2]]. rewrite H1. exists (Chunked s'). auto.
Qed.

Section Items.
  Context {S T : Type} {SQ : Sequence S (list T)}.
  Context (LS : lawful_items (S := S) (T := T)).

  Lemma advance_one (s : S) x rest : content s = x :: rest ->
    exists s', advance s 1 = Ret s' /\ content s' = rest.
  Proof. intros H. apply (LS s [x] rest H). Qed.

  Lemma any_item_spec (s : S) :
    match content s with
    | [] => any_item_parse s = Ret (Err (MkMiss tt) s)
    | x :: rest => exists s', any_item_parse s = Ret (Ok x s') /\ content s' = rest
    end.
  Proof.
    unfold any_item_parse. pose proof (advance_one s) as Hadv. unfold content in *.
    induction (segments s) as [|seg segs IH]; cbn; [reflexivity|].
    destruct seg as [|x seg]; cbn in *; [now apply IH|].
    destruct (Hadv x (seg ++ concat segs) eq_refl) as [s' [H1 H2]].
    rewrite H1. cbn. exists s'. now split.
  Qed.

  Section TheItem.
    Context (eqb : T -> T -> bool) (HE : decides_eq eqb).
    Lemma the_item_spec (x : T) (s : S) :
      (forall rest, content s = x :: rest ->
         exists s', the_item_parse eqb x s = Ret (Ok tt s') /\ content s' = rest) /\
      ((forall rest, content s <> x :: rest) -> the_item_parse eqb x s = Ret (Err (MkMiss tt) s)).
    Proof.
      unfold the_item_parse. pose proof (advance_one s) as Hadv. unfold content in *.
      induction (segments s) as [|seg segs IH]; cbn; [split; [discriminate|reflexivity]|].
      destruct seg as [|y seg]; cbn in *; [now apply IH|]. split.
      - intros rest H. injection H as -> H. assert (eqb x x = true) as -> by now apply HE.
        destruct (Hadv x rest) as [s' [H1 H2]]; [congruence|]. rewrite H1. cbn. exists s'. now split.
      - intros H. destruct (eqb y x) eqn:E; auto. apply HE in E. subst.
        exfalso. eapply H. reflexivity.
    Qed.

    Lemma list_eqb_eq : decides_eq (list_eqb eqb).
    Proof.
      intros a. induction a as [|x a IH]; intros [|y b]; cbn; split; intros H; try discriminate; auto.
      - apply andb_true_iff in H. destruct H as [H1 H2]. apply HE in H1. apply IH in H2. congruence.
      - injection H as -> ->. apply andb_true_iff. split; [now apply HE|now apply IH].
    Qed.
    Lemma list_eqb_neq a b : list_eqb eqb a b = false <-> a <> b.
    Proof.
      pose proof (list_eqb_eq a b). destruct (list_eqb eqb a b); split; intros; try congruence.
      exfalso; intuition. intros He. apply H in He. congruence.
    Qed.

    Let SG := list_segment eqb.
    Existing Instance SG.

    (** The whole behaviour of the atom loop on what is left of the stream. *)
    Lemma atom_loop_spec (remain : list T) segs (input : S) :
      (forall n, n <= length (concat segs) -> exists s', advance input n = Ret s') ->
      (prefix remain (concat segs) /\ (remain = [] -> segs <> []) ->
       exists before seg after s',
         segs = before ++ seg :: after /\ ends_in (length remain) before seg /\
         advance input (length remain - length (concat before)) = Ret s' /\
         atom_loop remain segs input = Ret (Ok tt s')) /\
      (~ (prefix remain (concat segs) /\ (remain = [] -> segs <> [])) ->
       atom_loop remain segs input = Ret (Err (MkMiss tt) input)).
    Proof.
      revert remain. induction segs as [|seg segs IH]; intros remain Hadv.
      - split; [|reflexivity]. intros [[r Hr] Hn]. cbn in Hr.
        symmetry in Hr. apply app_eq_nil in Hr. destruct Hr as [-> _]. exfalso. now apply Hn.
      - cbn [atom_loop]. cbn [seg_len seg_split_at seg_eqb SG list_segment].
        destruct (Nat.leb_spec (length remain) (length seg)) as [Hle|Hlt].
        + unfold list_split_at. destruct (Nat.leb_spec (length remain) (length seg)); [|lia]. cbn [bind].
          destruct (list_eqb eqb (firstn (length remain) seg) remain) eqn:E.
          * apply list_eqb_eq in E.
            destruct (Hadv (length remain)) as [s' Hs']. { cbn. rewrite app_length. lia. }
            rewrite Hs'. cbn [bind done]. split.
            -- intros _. exists [], seg, segs, s'. cbn. rewrite Nat.sub_0_r. repeat split; auto.
               intros b1 b2 x Hx. destruct b1; discriminate.
            -- intros Hn. exfalso. apply Hn. split; [|discriminate].
               exists (skipn (length remain) seg ++ concat segs). cbn.
               rewrite app_assoc. rewrite <- E at 1. now rewrite firstn_skipn.
          * apply list_eqb_neq in E. split; [|reflexivity].
            intros [[r Hr] _]. exfalso. apply E. cbn in Hr.
            assert (firstn (length remain) (seg ++ concat segs) = remain) as H0
              by (rewrite Hr; apply firstn_length_app).
            rewrite firstn_app in H0. replace (length remain - length seg) with 0 in H0 by lia.
            cbn in H0. now rewrite app_nil_r in H0.
        + unfold list_split_at. destruct (Nat.leb_spec (length seg) (length remain)); [|lia]. cbn [bind].
          destruct (list_eqb eqb seg (firstn (length seg) remain)) eqn:E; cbn [negb].
          * apply list_eqb_eq in E.
            assert (remain = seg ++ skipn (length seg) remain) as Hrem.
            { rewrite E at 1. now rewrite firstn_skipn. }
            set (r := skipn (length seg) remain) in *.
            assert (0 < length r) as Hr by (unfold r; rewrite skipn_length; lia).
            destruct (IH r) as [IH1 IH2]. { intros n Hn. apply Hadv. cbn. rewrite app_length. lia. }
            split.
            -- intros [[z Hz] _]. cbn in Hz. rewrite Hrem in Hz. rewrite <- app_assoc in Hz.
               apply app_inv_head in Hz.
               destruct IH1 as [before [sg [after [s' [H1 [[H2 H2'] [H3 H4]]]]]]].
               { split; [now exists z|]. intros Hr0. rewrite Hr0 in Hr. cbn in Hr. lia. }
               exists (seg :: before), sg, after, s'.
               assert (length remain = length seg + length r) as Hlen by (rewrite Hrem at 1; apply app_length).
               cbn. rewrite app_length. split; [|split; [|split]]; auto.
               ++ now rewrite H1.
               ++ split.
                  ** cbn. rewrite app_length. lia.
                  ** intros b1 b2 x Hx. destruct b1 as [|y b1]; cbn in *.
                     --- injection Hx as <- Hx. lia.
                     --- injection Hx as <- Hx. specialize (H2' b1 b2 x Hx). rewrite app_length. lia.
               ++ rewrite Hlen. replace (length seg + length r - (length seg + length (concat before)))
                    with (length r - length (concat before)) by lia. exact H3.
            -- intros Hn. apply IH2. intros [[z Hz] _]. apply Hn. split; [|discriminate].
               exists z. cbn. rewrite Hz. rewrite Hrem at 1. now rewrite app_assoc.
          * apply list_eqb_neq in E. split; [|reflexivity].
            intros [[z Hz] _]. exfalso. apply E. cbn in Hz.
            assert (firstn (length seg) (seg ++ concat segs) = seg) as H0 by apply firstn_length_app.
            rewrite Hz, firstn_app in H0. replace (length seg - length remain) with 0 in H0 by lia.
            cbn in H0. rewrite app_nil_r in H0. congruence.
    Qed.

    Lemma atom_decides (pat : list T) (s : S) :
      let matches := prefix pat (content s) /\ (pat = [] -> segments s <> []) in
      (matches -> exists s', atom_parse pat s = Ret (Ok tt s')) /\
      (~ matches -> atom_parse pat s = Ret (Err (MkMiss tt) s)).
    Proof.
      cbv zeta. unfold atom_parse, content.
      destruct (@atom_loop_spec pat (segments s) s) as [H1 H2].
      { intros n Hn. destruct (LS s (firstn n (content s)) (skipn n (content s))) as [s' [Hs' _]].
        - symmetry; apply firstn_skipn.
        - exists s'. rewrite <- Hs'. rewrite firstn_length, Nat.min_l; auto. }
      split; auto. intros Hm. destruct (H1 Hm) as [before [sg [after [s' [_ [_ [_ H4]]]]]]]. eauto.
    Qed.

    Lemma atom_consumption (pat : list T) (s s' : S) :
      atom_parse pat s = Ret (Ok tt s') ->
      exists before seg after,
        segments s = before ++ seg :: after /\ ends_in (length pat) before seg /\
        content s' = skipn (length pat - length (concat before)) (content s).
    Proof.
      intros Hok. unfold atom_parse in Hok.
      destruct (@atom_loop_spec pat (segments s) s) as [H1 H2].
      { intros n Hn. destruct (LS s (firstn n (content s)) (skipn n (content s))) as [s1 [Hs' _]].
        - symmetry; apply firstn_skipn.
        - exists s1. rewrite <- Hs'. rewrite firstn_length, Nat.min_l; auto. }
      assert (prefix pat (concat (segments s)) /\ (pat = [] -> segments s <> [])) as Hm.
      { assert (~ ~ (prefix pat (concat (segments s)) /\ (pat = [] -> segments s <> []))) as Hnn.
        { intros Hn. rewrite (H2 Hn) in Hok. discriminate. }
        split.
        - destruct (list_eqb eqb (firstn (length pat) (concat (segments s))) pat) eqn:E.
          + apply list_eqb_eq in E. exists (skipn (length pat) (concat (segments s))).
            rewrite <- E at 1. now rewrite firstn_skipn.
          + apply list_eqb_neq in E. exfalso. apply Hnn. intros [[z Hz] _]. apply E.
            rewrite Hz. apply firstn_length_app.
        - intros Hp Hs. apply Hnn. intros [_ Hq]. now apply Hq. }
      destruct (H1 Hm) as [before [sg [after [s1 [Hseg [Hend [Hadv Heq]]]]]]].
      rewrite Heq in Hok. injection Hok as <-.
      exists before, sg, after. split; auto. split; auto.
      destruct Hm as [[z Hz] _].
      set (n := length pat - length (concat before)) in *.
      assert (n <= length (content s)) as Hn.
      { unfold content. rewrite Hz, app_length. lia. }
      destruct (LS s (firstn n (content s)) (skipn n (content s))) as [s2 [Hs2 Hc]].
      { symmetry; apply firstn_skipn. }
      rewrite firstn_length, Nat.min_l in Hs2 by auto. congruence.
    Qed.

    (** Within the first segment: exactly the pattern. *)
    Lemma atom_first_segment (pat : list T) (s s' : S) seg rest :
      segments s = seg :: rest -> length pat <= length seg ->
      atom_parse pat s = Ret (Ok tt s') -> content s = pat ++ content s'.
    Proof.
      intros Hseg Hle Hok.
      destruct (atom_consumption _ _ Hok) as [before [sg [after [H1 [[H2 H2'] H3]]]]].
      assert (before = []) as ->.
      { destruct before as [|x before]; auto. exfalso. rewrite H1 in Hseg. injection Hseg as -> _.
        specialize (H2' [] before seg eq_refl). cbn in H2'. lia. }
      cbn in H3. rewrite Nat.sub_0_r in H3. rewrite H3.
      assert (prefix pat (content s)) as [z Hz].
      { destruct (atom_decides pat s) as [_ D].
        destruct (list_eqb eqb (firstn (length pat) (content s)) pat) eqn:E.
        - apply list_eqb_eq in E. exists (skipn (length pat) (content s)).
          rewrite <- E at 1. now rewrite firstn_skipn.
        - apply list_eqb_neq in E. rewrite D in Hok; [discriminate|].
          intros [[z Hz] _]. apply E. rewrite Hz. apply firstn_length_app. }
      rewrite Hz. rewrite skipn_length_app. reflexivity.
    Qed.
  End TheItem.
End Items.

Section Chars.
  Context {S : Type} {SQ : Sequence S str}.
  Context (LS : lawful_text (S := S)).

  Lemma advance_char (s : S) c rest : text s = c :: rest ->
    exists s', advance s (len_utf8 c) = Ret s' /\ text s' = rest.
  Proof.
    intros H. destruct (LS s [c] rest H) as [s' [H1 H2]]. rewrite chars_len_cons in H1.
    cbn in H1. rewrite Nat.add_0_r in H1. eauto.
  Qed.

  Lemma any_char_spec (s : S) :
    match text s with
    | [] => any_char_parse s = Ret (Err (MkMiss tt) s)
    | x :: rest => exists s', any_char_parse s = Ret (Ok x s') /\ text s' = rest
    end.
  Proof.
    unfold any_char_parse. pose proof (advance_char s) as Hadv. unfold text in *.
    induction (segments s) as [|seg segs IH]; cbn; [reflexivity|].
    destruct (chars seg) as [|x xs] eqn:E; cbn in *; rewrite E in Hadv; cbn in Hadv; [exact (IH Hadv)|].
    destruct (Hadv x (xs ++ concat (map chars segs)) eq_refl) as [s' [H1 H2]].
    rewrite H1. cbn. exists s'. now split.
  Qed.

  Lemma the_char_spec (x : char) (s : S) :
    (forall rest, text s = x :: rest ->
       exists s', the_char_parse x s = Ret (Ok tt s') /\ text s' = rest) /\
    ((forall rest, text s <> x :: rest) -> the_char_parse x s = Ret (Err (MkMiss tt) s)).
  Proof.
    unfold the_char_parse. pose proof (advance_char s) as Hadv. unfold text in *.
    induction (segments s) as [|seg segs IH]; cbn; [split; [discriminate|reflexivity]|].
    destruct (chars seg) as [|y ys] eqn:E; cbn in *; rewrite E in Hadv; cbn in Hadv; [exact (IH Hadv)|]. split.
    - intros rest H. injection H as -> H. rewrite N.eqb_refl.
      destruct (Hadv x rest) as [s' [H1 H2]]; [congruence|]. rewrite H1. cbn. exists s'. now split.
    - intros H. destruct (N.eqb_spec y x) as [->|]; auto.
      exfalso. eapply H. reflexivity.
  Qed.

  Lemma str_eqb_eq a b : str_eqb a b = true <-> a = b.
  Proof.
    unfold str_eqb. assert (decides_eq N.eqb) as HN by (intros x y; apply N.eqb_eq).
    pose proof (list_eqb_eq HN (chars a) (chars b)) as H. destruct a, b; cbn in *. rewrite H. split; congruence.
  Qed.

  (** atom over text, any segmentation: a prefix is always found. *)
  Lemma atom_str_accepts_loop (remain : list char) segs (input : S) :
    prefix remain (concat (map chars segs)) -> segs <> [] ->
    exists n, atom_loop (Str remain) segs input = (r <- advance input n ;; done tt r).
  Proof.
    revert remain. induction segs as [|seg segs IH]; intros remain [z Hz] Hne; [congruence|].
    cbn [atom_loop]. cbn [seg_len seg_split_at seg_eqb str_segment]. unfold str_len, str_split_at. cbn [chars].
    destruct (Nat.leb_spec (chars_len remain) (chars_len (chars seg))) as [Hle|Hlt].
    - assert (exists w, chars seg = remain ++ w) as [w Hw].
      { cbn in Hz. clear - Hz Hle. revert remain Hz Hle. induction (chars seg) as [|c l IH]; intros remain Hz Hle.
        - destruct remain as [|c r]; [now exists []|]. rewrite chars_len_cons in Hle. cbn in Hle.
          pose proof (len_utf8_pos c). lia.
        - destruct remain as [|c' r]; [now exists (c :: l)|]. cbn in Hz. injection Hz as -> Hz.
          rewrite !chars_len_cons in Hle. destruct (IH r Hz) as [w ->]; [lia|]. now exists w. }
      rewrite Hw, split_chars_complete. cbn [bind].
      assert (str_eqb (Str remain) (Str remain) = true) as -> by now apply str_eqb_eq.
      eexists. reflexivity.
    - assert (exists w, remain = chars seg ++ w /\ w <> []) as [w [Hw Hwn]].
      { cbn in Hz. clear - Hz Hlt. revert remain Hz Hlt. induction (chars seg) as [|c l IH]; intros remain Hz Hlt.
        - exists remain. split; auto. intros ->. cbn in Hlt. lia.
        - destruct remain as [|c' r]; [cbn in Hlt; lia|]. cbn in Hz. injection Hz as -> Hz.
          rewrite !chars_len_cons in Hlt. destruct (IH r Hz) as [w [-> H]]; [lia|]. now exists w. }
      rewrite Hw, split_chars_complete. cbn [bind].
      assert (str_eqb seg (Str (chars seg)) = true) as -> by (apply str_eqb_eq; now destruct seg).
      cbn [negb]. rewrite Hw in Hz. cbn in Hz. rewrite <- app_assoc in Hz. apply app_inv_head in Hz.
      apply IH.
      + now exists z.
      + intros ->. cbn in Hz. destruct w; [congruence|discriminate].
  Qed.

  (** ... and a success always means the text starts with the pattern. *)
  Lemma atom_str_sound_loop (remain : list char) segs (input s' : S) :
    atom_loop (Str remain) segs input = Ret (Ok tt s') ->
    prefix remain (concat (map chars segs)).
  Proof.
    revert remain. induction segs as [|seg segs IH]; intros remain H; [discriminate|].
    cbn [atom_loop] in H. cbn [seg_len seg_split_at seg_eqb str_segment] in H.
    unfold str_len, str_split_at in H. cbn [chars] in H.
    destruct (Nat.leb_spec (chars_len remain) (chars_len (chars seg))) as [Hle|Hlt].
    - destruct (split_chars (chars seg) (chars_len remain)) as [[a b]|] eqn:E; [|discriminate].
      cbn [bind] in H. destruct (str_eqb (Str a) (Str remain)) eqn:E2; [|discriminate].
      apply str_eqb_eq in E2. injection E2 as ->. apply split_chars_sound in E. destruct E as [E _].
      exists (b ++ concat (map chars segs)). cbn. now rewrite E, app_assoc.
    - destruct (split_chars remain (chars_len (chars seg))) as [[a b]|] eqn:E; [|discriminate].
      cbn [bind] in H. destruct (str_eqb seg (Str a)) eqn:E2; cbn [negb] in H; [|discriminate].
      apply str_eqb_eq in E2. apply split_chars_sound in E. destruct E as [-> _].
      destruct (IH b H) as [z Hz]. exists z. cbn. rewrite Hz, E2, app_assoc. reflexivity.
  Qed.
End Chars.

(** atom on a [&str]: the exact behaviour, including the panics. *)
Lemma atom_strref_exact (pat : list char) (s : strref) :
  let t := chars (sr_str s) in
  (forall rest, t = pat ++ rest ->
     exists s', atom_parse (Str pat) s = Ret (Ok tt s') /\ later_str s s' /\ chars (sr_str s') = rest) /\
  (~ prefix pat t ->
     (chars_len pat <= chars_len t ->
        (boundary t (chars_len pat) -> atom_parse (Str pat) s = Ret (Err (MkMiss tt) s)) /\
        (~ boundary t (chars_len pat) -> atom_parse (Str pat) s = Panic)) /\
     (chars_len t < chars_len pat ->
        (boundary pat (chars_len t) -> atom_parse (Str pat) s = Ret (Err (MkMiss tt) s)) /\
        (~ boundary pat (chars_len t) -> atom_parse (Str pat) s = Panic))).
Proof.
  cbv zeta. unfold atom_parse. cbn [segments strref_sequence strref_segments atom_loop].
  cbn [seg_len seg_split_at seg_eqb str_segment]. unfold str_len, str_split_at. cbn [chars].
  set (t := chars (sr_str s)). split.
  - intros rest Ht. rewrite Ht, chars_len_app.
    destruct (Nat.leb_spec (chars_len pat) (chars_len pat + chars_len rest)); [|lia].
    rewrite split_chars_complete. cbn [bind].
    assert (str_eqb (Str pat) (Str pat) = true) as -> by now apply str_eqb_eq.
    cbn [advance strref_sequence]. rewrite (strref_advance_at _ pat rest) by exact Ht.
    cbn. eexists; split; [reflexivity|]. split; auto. exists pat. auto.
  - intros Hnp. split; intros Hl.
    + destruct (Nat.leb_spec (chars_len pat) (chars_len t)); [|lia]. split; intros Hb.
      * destruct Hb as [a [b [Hab Ha]]]. rewrite <- Ha, Hab, split_chars_complete. cbn [bind].
        destruct (str_eqb (Str a) (Str pat)) eqn:E; [|reflexivity].
        apply str_eqb_eq in E. injection E as ->. exfalso. apply Hnp. now exists b.
      * apply split_chars_none in Hb. now rewrite Hb.
    + destruct (Nat.leb_spec (chars_len pat) (chars_len t)); [lia|]. split; intros Hb.
      * destruct Hb as [a [b [Hab Ha]]]. rewrite <- Ha, Hab, split_chars_complete. cbn [bind].
        destruct (str_eqb (sr_str s) (Str a)); reflexivity.
      * apply split_chars_none in Hb. now rewrite Hb.
Qed.

Lemma ascii_len_utf8 c : (c < 128)%N -> len_utf8 c = 1.
Proof. intros H. unfold len_utf8. destruct (N.ltb_spec c 128); [reflexivity|lia]. Qed.
Lemma ascii_chars_len cs : Forall (fun c => (c < 128)%N) cs -> chars_len cs = length cs.
Proof. induction 1; [reflexivity|]. rewrite chars_len_cons, ascii_len_utf8 by auto. cbn. congruence. Qed.
Lemma ascii_boundary cs n :
  Forall (fun c => (c < 128)%N) cs -> n <= length cs -> boundary cs n.
Proof.
  intros H Hn. exists (firstn n cs), (skipn n cs). split; [symmetry; apply firstn_skipn|].
  rewrite ascii_chars_len, firstn_length; [lia|]. rewrite <- (firstn_skipn n cs) in H.
  now apply Forall_app in H.
Qed.
Lemma atom_ascii (pat : list char) (s : strref) :
  Forall (fun c => (c < 128)%N) pat -> Forall (fun c => (c < 128)%N) (chars (sr_str s)) ->
  exists r, parse (atom (Str pat)) s = Ret r.
Proof.
  intros Hp Ht. cbn [parse atom]. destruct (atom_strref_exact pat s) as [H1 H2].
  destruct (list_eq_dec N.eq_dec (firstn (length pat) (chars (sr_str s))) pat) as [E|E].
  - destruct (H1 (skipn (length pat) (chars (sr_str s)))) as [s' [Hs' _]].
    + rewrite <- E at 1. symmetry; apply firstn_skipn.
    + eauto.
  - assert (~ prefix pat (chars (sr_str s))) as Hn.
    { intros [r Hr]. apply E. rewrite Hr. apply firstn_length_app. }
    destruct (H2 Hn) as [H3 H4]. rewrite !ascii_chars_len in H3, H4 by auto.
    destruct (Nat.le_gt_cases (length pat) (length (chars (sr_str s)))) as [Hl|Hl].
    + destruct (H3 Hl) as [H5 _]. rewrite H5; eauto using ascii_boundary.
    + destruct (H4 Hl) as [H5 _]. exists (Err (MkMiss tt) s). apply H5.
      apply ascii_boundary; [exact Hp|]. apply Nat.lt_le_incl. exact Hl.
Qed.

Lemma atom_text_success {S} `{Sequence S str} (pat : list char) (s : S) :
  (forall s', parse (atom (Str pat)) s = Ret (Ok tt s') -> prefix pat (text s)) /\
  (prefix pat (text s) -> segments s <> [] ->
   exists n, parse (atom (Str pat)) s = (r <- advance s n ;; Ret (Ok tt r))).
Proof.
  split.
  - intros s' Hs. eapply atom_str_sound_loop. exact Hs.
  - intros Hp Hn. exact (atom_str_accepts_loop s Hp Hn).
Qed.

Lemma atom_consumption_refuted :
  let SG := list_segment Nat.eqb in
  lawful_items (S := chunked nat) (T := nat) /\ decides_eq Nat.eqb /\
  exists (pat : list nat) (s s' : chunked nat),
    parse (atom pat) s = Ret (Ok tt s') /\ content s <> pat ++ content s'.
Proof.
  cbv zeta. split; [apply chunked_lawful|]. split; [intros x y; apply Nat.eqb_eq|].
  exists [1; 2; 3], (Chunked [[1; 2]; [3; 4]]), (Chunked [[2]; [3; 4]]).
  split; [reflexivity|discriminate].
Qed.
