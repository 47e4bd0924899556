(** * L_StdLines: lemmas for P_StdLines. *)
From Verif Require Import L_Metrics S_StdLines.

Lemma utf8_bytes_pos c : 1 <= utf8_bytes c.
Proof. unfold utf8_bytes. repeat destruct (_ <? _)%N; lia. Qed.
Lemma utf8_bytes_one c : utf8_bytes c = 1 <-> (c < 128)%N.
Proof. unfold utf8_bytes. destruct (N.ltb_spec c 128); [|repeat destruct (_ <? _)%N]; split; intros; try lia. Qed.
Lemma byte_len_app a b : byte_len (a ++ b) = byte_len a + byte_len b.
Proof. unfold byte_len. now rewrite map_app, list_sum_app. Qed.
Lemma byte_len_ge text : length text <= byte_len text.
Proof.
  induction text as [|c text IH]; [cbn; lia|].
  change (byte_len (c :: text)) with (utf8_bytes c + byte_len text). cbn [length]. pose proof (utf8_bytes_pos c). lia.
Qed.
Lemma byte_len_ascii text : byte_len text = length text <-> ascii text.
Proof.
  induction text as [|c text IH]; [split; constructor|].
  change (byte_len (c :: text)) with (utf8_bytes c + byte_len text). cbn [length].
  pose proof (utf8_bytes_pos c). pose proof (byte_len_ge text). pose proof (utf8_bytes_one c). split.
  - intros E. constructor; [apply H1; lia|apply IH; lia].
  - intros A. inversion A; subst. apply H1 in H4. apply IH in H5. lia.
Qed.

Lemma std_lines_exist text : exists ls, std_lines text ls.
Proof.
  destruct (lines_exist N.eq_dec [10%N] text ltac:(discriminate)) as [whole W].
  assert (forall l, exists l', stripped l l') as St.
  { intros l. destruct (snoc_case l) as [->|(b & x & ->)].
    - exists []. apply st_open. intros [|? ?]; discriminate.
    - destruct (N.eq_dec x 10) as [->|Nx].
      + destruct (snoc_case b) as [->|(b' & y & ->)].
        * exists []. apply (st_lf []). intros [|? ?]; discriminate.
        * destruct (N.eq_dec y 13) as [->|Ny].
          -- exists b'. rewrite <- app_assoc. apply st_crlf.
          -- eexists. apply st_lf. intros b'' E. apply app_inj_tail in E. now destruct E.
      + eexists. apply st_open. intros b' E. apply app_inj_tail in E. now destruct E. }
  assert (exists ls, Forall2 stripped whole ls) as [ls F].
  { clear W. induction whole as [|l whole [ls F]]; [eauto|]. destruct (St l) as [l' L]. eauto. }
  exists ls, whole. auto.
Qed.

Lemma stripped_fun l a b : stripped l a -> stripped l b -> a = b.
Proof.
  assert (forall b : list N, b ++ [13; 10]%N = (b ++ [13%N]) ++ [10%N]) as As by (intros; now rewrite <- app_assoc).
  intros Ha Hb. destruct Ha as [x|x Nx|x Nx]; inversion Hb as [y E|y Ny E|y Ny E]; subst.
  - rewrite !As in E. apply app_inj_tail in E. destruct E as [E _]. apply app_inj_tail in E. symmetry. tauto.
  - rewrite !As in E. apply app_inj_tail in E. destruct E as [-> _]. now destruct (Ny x).
  - destruct (Ny (x ++ [13%N])). now apply As.
  - rewrite !As in E. apply app_inj_tail in E. destruct E as [E _]. edestruct Nx; eauto.
  - apply app_inj_tail in E. symmetry. tauto.
  - now destruct (Ny x).
  - destruct (Nx (b ++ [13%N])). rewrite <- As. auto.
  - now destruct (Nx b).
  - auto.
Qed.

Lemma std_lines_unique text a b : std_lines text a -> std_lines text b -> a = b.
Proof.
  intros (w & W & F) (w' & W' & F'). rewrite (lines_unique [10%N] text w' w ltac:(discriminate) W' W) in F'.
  clear W W' w'. revert b F'. induction F as [|l l' w ls Hl F IH]; intros b F'; inversion F'; subst; auto.
  f_equal; [eapply stripped_fun; eauto|auto].
Qed.

(** The last line and the end of the text. *)
Lemma forall2_last {A B} (R : A -> B -> Prop) l l' a b : Forall2 R l l' -> l <> [] -> R (last l a) (last l' b).
Proof.
  induction 1 as [|x y l l' H F IH]; [easy|]. intros _. destruct F as [|x' y' l l' H' F]; [exact H|].
  cbn [last] in IH |- *. apply IH. discriminate.
Qed.

Lemma last_line text whole : lines [10%N] text whole -> text <> [] ->
  whole <> [] /\ exists a, text = a ++ last whole [].
Proof.
  intros [C _] N. destruct (snoc_case whole) as [->|(w & l & ->)]; [now destruct N|].
  split; [now destruct w|]. exists (concat w). rewrite last_last, <- C, concat_app. cbn. now rewrite app_nil_r.
Qed.

(** No line is empty: each has its terminator. *)
Lemma line_nonempty text whole : lines [10%N] text whole -> whole <> [] -> last whole [] <> [].
Proof.
  intros (_ & full & final & -> & F & [->|(l & -> & O)]) N.
  - rewrite app_nil_r in *. destruct (snoc_case full) as [->|(f & l & ->)]; [easy|]. rewrite last_last.
    apply Forall_app in F. destruct F as [_ F]. inversion F as [|? ? [[b ->] _] _]; subst. now destruct b.
  - rewrite last_last. now destruct O.
Qed.

(** The characters and the bytes the last line loses. *)
Lemma last_line_ends text whole l k : lines [10%N] text whole -> text <> [] ->
  stripped (last whole []) l -> ends_with text k ->
  length (last whole []) = length l + k /\ byte_len (last whole []) = byte_len l + k.
Proof.
  intros W Nt St En. destruct (last_line text whole W Nt) as [Nw [a E]].
  pose proof (line_nonempty text whole W Nw) as Nl.
  assert (forall b : list N, b ++ [13; 10]%N = (b ++ [13%N]) ++ [10%N]) as As by (intros; now rewrite <- app_assoc).
  destruct (snoc_case (last whole [])) as [Q|(b & x & Q)]; [now destruct Nl|]. rewrite Q in *. clear Nl.
  rewrite app_assoc in E.
  inversion St as [y Ey|y Ny Ey|y Ny Ey]; subst l.
  - (* CR LF *) rewrite As in Ey. apply app_inj_tail in Ey. destruct Ey as [<- <-].
    inversion En as [z Ez|z Nz Ez|z Nz Ez]; subst k.
    + rewrite !app_length, !byte_len_app. cbn. lia.
    + exfalso. rewrite E in Ez. apply app_inj_tail in Ez. destruct Ez as [-> _]. apply (Nz (a ++ y)). now rewrite app_assoc.
    + exfalso. now apply (Nz (a ++ y ++ [13%N])).
  - (* LF *) apply app_inj_tail in Ey. destruct Ey as [-> <-].
    inversion En as [z Ez|z Nz Ez|z Nz Ez]; subst k.
    + (* the CR would be in the line before *)
      exfalso. rewrite E, As in Ez. apply app_inj_tail in Ez. destruct Ez as [Ez _].
      destruct (snoc_case b) as [->|(b' & c & ->)].
      * rewrite app_nil_r in Ez. subst a. clear - W Q E Nw.
        destruct W as (C & full & final & -> & F & Fi).
        assert (exists f, full = f ++ [[10%N]] /\ final = []) as [f [-> ->]].
        { destruct Fi as [->|(l & -> & O)].
          - rewrite app_nil_r in *. destruct (snoc_case full) as [->|(f & l & ->)]; [easy|]. rewrite last_last in Q. subst. exists f. auto.
          - rewrite last_last in Q. subst l. destruct O as [_ O]. now destruct (O [] []). }
        rewrite app_nil_r in *. rewrite concat_app in C. cbn in C. rewrite <- C in E.
        apply app_inj_tail in E. destruct E as [E _].
        apply Forall_app in F. destruct F as [F _].
        destruct (snoc_case f) as [->|(f' & l & ->)]; [now destruct z|].
        apply Forall_app in F. destruct F as [_ F]. inversion F as [|? ? [[b ->] _] _]; subst.
        rewrite concat_app in E. cbn in E. rewrite app_nil_r, app_assoc in E. apply app_inj_tail in E. now destruct E.
      * rewrite app_assoc in Ez. apply app_inj_tail in Ez. destruct Ez as [_ <-]. now apply (Ny b').
    + rewrite !app_length, !byte_len_app. cbn. lia.
    + exfalso. now apply (Nz (a ++ b)).
  - (* open *)
    inversion En as [z Ez|z Nz Ez|z Nz Ez]; subst k.
    + exfalso. rewrite E, As in Ez. apply app_inj_tail in Ez. destruct Ez as [_ <-]. now apply (Ny b).
    + exfalso. rewrite E in Ez. apply app_inj_tail in Ez. destruct Ez as [_ <-]. now apply (Ny b).
    + lia.
Qed.
