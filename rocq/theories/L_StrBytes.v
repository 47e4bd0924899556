(** * L_StrBytes: the chars of the model against bytes. *)
From Coq Require Import Lia ZArith ZifyN ZifyNat.
From Verif Require Import M_Writer M_Utf8 L_Seq S_Utf8 S_StrBytes.

Ltac Zify.zify_post_hook ::= Z.div_mod_to_equations.

Ltac by_size c :=
  destruct (N.ltb_spec c 128); [|destruct (N.ltb_spec c 2048); [|destruct (N.ltb_spec c 65536)]].

Lemma encode_len c : length (encode c) = len_utf8 c.
Proof. unfold encode, len_utf8, char in *. by_size c; reflexivity. Qed.

Lemma bytes_length cs : length (bytes_of cs) = chars_len cs.
Proof.
  induction cs as [|c cs IH]; [reflexivity|]. unfold bytes_of, chars_len in *. cbn.
  rewrite app_length, IH, encode_len. reflexivity.
Qed.

Lemma bytes_app a b : bytes_of (a ++ b) = bytes_of a ++ bytes_of b.
Proof. apply flat_map_app. Qed.

Lemma encode_byte c b : scalar c -> In b (encode c) -> (b < 256)%N.
Proof.
  unfold scalar, encode. intros V. by_size c; cbn [In]; intros Q;
    repeat (destruct Q as [<-|Q]; [lia|]); destruct Q.
Qed.

(** The first byte is no continuation, the others are. *)
Lemma encode_shape c : scalar c ->
  exists b bs, encode c = b :: bs /\ ~ continuation b /\ forall x, In x bs -> continuation x.
Proof.
  unfold scalar, encode, continuation. intros V. by_size c; eexists; eexists; (split; [reflexivity|]); split; try lia;
    cbn [In]; intros x Q; repeat (destruct Q as [<-|Q]; [lia|]); destruct Q.
Qed.

Lemma cons_eq {A} (a b : A) x y : a :: x = b :: y -> a = b /\ x = y.
Proof. now injection 1. Qed.

(** No code is the start of another. *)
Lemma encode_prefix c d x y : scalar c -> scalar d -> encode c ++ x = encode d ++ y -> c = d /\ x = y.
Proof.
  unfold scalar, encode. intros V W. by_size c; by_size d; cbn [app]; intros Q; unfold byte in *;
    repeat (apply cons_eq in Q as [? Q]; try (exfalso; lia)); (split; [lia|exact Q]).
Qed.

Lemma bytes_inj a : forall b, Forall scalar a -> Forall scalar b -> bytes_of a = bytes_of b -> a = b.
Proof.
  induction a as [|c a IH]; intros [|d b] V W Q; cbn in Q; [reflexivity| | |].
  - inversion W; subst. destruct (encode_shape d) as (? & ? & E & _); [assumption|]. rewrite E in Q. discriminate.
  - inversion V; subst. destruct (encode_shape c) as (? & ? & E & _); [assumption|]. rewrite E in Q. discriminate.
  - inversion V; inversion W; subst. apply encode_prefix in Q as [-> Q]; auto. f_equal. auto.
Qed.

Lemma len_pos c : 1 <= len_utf8 c.
Proof. unfold len_utf8. by_size c; lia. Qed.

Lemma chars_len_cons c a : chars_len (c :: a) = len_utf8 c + chars_len a.
Proof. reflexivity. Qed.

(** Boundaries of chars are boundaries of bytes. *)
Lemma boundary_cons c cs n :
  boundary (c :: cs) n <-> n = 0 \/ (len_utf8 c <= n /\ boundary cs (n - len_utf8 c)).
Proof.
  split.
  - intros (a & b & E & L). destruct a as [|x a]; [left; now cbn in L|right].
    cbn in E. injection E as -> E. rewrite chars_len_cons in L. split; [lia|]. exists a, b. split; [exact E|]. lia.
  - intros [->|[LE (a & b & -> & L)]]; [exists [], (c :: cs); auto|].
    exists (c :: a), b. split; [reflexivity|]. rewrite chars_len_cons. lia.
Qed.

Lemma boundary_bytes cs : Forall scalar cs -> forall n, boundary cs n <-> is_char_boundary (bytes_of cs) n.
Proof.
  intros V. induction V as [|c cs V Vs IH]; intros n.
  - split.
    + intros (a & b & E & L). destruct a; [|discriminate]. cbn in L. left. now subst.
    + intros [->|(b & Q & _)]; [now exists [], []|]. destruct n; discriminate.
  - rewrite boundary_cons. unfold is_char_boundary. cbn [bytes_of flat_map]. fold (bytes_of cs).
    destruct (encode_shape c V) as (b & bs & E & NB & CB). pose proof (encode_len c) as LU. rewrite app_length, LU.
    destruct (Nat.eq_dec n 0) as [->|NZ].
    + split; [|auto]. intros _. right. exists b. rewrite E. auto.
    + destruct (le_lt_dec (len_utf8 c) n) as [G|G].
      * rewrite nth_error_app2, LU by lia. rewrite IH. unfold is_char_boundary. split.
        -- intros [|[_ [Q|Q]]]; [contradiction|left; lia|now right].
        -- intros [Q|Q]; right; (split; [exact G|]); [left; lia|now right].
      * rewrite nth_error_app1 by lia. split; [intros [|[]]; [contradiction|lia]|].
        intros [Q|(x & Q & NX)]; [lia|]. exfalso. apply NX. rewrite E in Q. destruct n; [contradiction|]. cbn in Q.
        apply CB. eapply nth_error_In. exact Q.
Qed.

(** Cutting chars is cutting bytes. *)
Lemma split_chars_bytes cs : forall n a b, split_chars cs n = Some (a, b) ->
  bytes_of a = firstn n (bytes_of cs) /\ bytes_of b = skipn n (bytes_of cs) /\ cs = a ++ b /\ chars_len a = n.
Proof.
  induction cs as [|c cs IH]; intros n a b; cbn [split_chars].
  - destruct (Nat.eqb_spec n 0) as [->|]; [|discriminate]. injection 1 as <- <-. auto.
  - destruct (Nat.eqb_spec n 0) as [->|NZ]; [injection 1 as <- <-; auto|].
    destruct (Nat.leb_spec (len_utf8 c) n) as [G|G]; [|discriminate].
    destruct (split_chars cs (n - len_utf8 c)) as [[a' b']|] eqn:E; [|discriminate]. injection 1 as <- <-.
    apply IH in E as (A & B & C & D). cbn [bytes_of flat_map]. fold (bytes_of a') (bytes_of cs).
    rewrite firstn_app, skipn_app, encode_len, A, B. rewrite (firstn_all2 (n := n) (encode c)), (skipn_all2 (n := n) (encode c)) by (rewrite encode_len; lia).
    repeat split; [now rewrite C|]. rewrite chars_len_cons. lia.
Qed.

Lemma split_chars_none cs : forall n, split_chars cs n = None <-> ~ boundary cs n.
Proof.
  induction cs as [|c cs IH]; intros n; cbn [split_chars].
  - destruct (Nat.eqb_spec n 0) as [->|NZ].
    + split; [discriminate|]. intros Q. exfalso. apply Q. now exists [], [].
    + split; [|reflexivity]. intros _ (a & b & E & L). destruct a; [cbn in L; lia|discriminate].
  - rewrite boundary_cons. destruct (Nat.eqb_spec n 0) as [->|NZ]; [split; [discriminate|tauto]|].
    destruct (Nat.leb_spec (len_utf8 c) n) as [G|G]; [|split; [intros _ [|[]]; lia|reflexivity]].
    specialize (IH (n - len_utf8 c)). destruct (split_chars cs (n - len_utf8 c)) as [[a b]|]; split; try discriminate.
    + intros Q. exfalso. destruct IH as [_ IH]. assert (Some (a, b) = None) as X by (apply IH; tauto). discriminate.
    + intros _ [|[_ B]]; [contradiction|]. now apply IH.
    + reflexivity.
Qed.

Lemma list_eqb_iff (a b : list N) : list_eqb N.eqb a b = true <-> a = b.
Proof.
  revert b. induction a as [|x a IH]; intros [|y b]; cbn; try (split; congruence).
  rewrite Bool.andb_true_iff, N.eqb_eq, IH. split; [intros [-> ->]; reflexivity|now injection 1].
Qed.

Lemma bytes_prefix a : forall b, Forall scalar a -> Forall scalar b ->
  (prefix a b <-> prefix (bytes_of a) (bytes_of b)).
Proof.
  intros b V W. split; [intros [r ->]; exists (bytes_of r); apply bytes_app|]. revert b W.
  induction V as [|c a V Vs IH]; intros b W [r E]; [now exists b|].
  destruct W as [|d b W Ws].
  - cbn in E. destruct (encode_shape c) as (? & ? & Q & _); [assumption|]. rewrite Q in E. discriminate.
  - cbn [bytes_of flat_map] in E. rewrite <- app_assoc in E. apply encode_prefix in E as [-> E]; auto.
    destruct (IH b Ws) as [r' ->]; [now exists r|]. now exists r'.
Qed.
