(** * P_Repeat: repeating a fixed word, and the example that does so, property C76. *)
From Verif Require Import L_Prim L_Comb M_Repeat S_Seq S_Prim S_Repeat.
From Coq Require Import Lia.

Lemma prefix_dec (w t : list char) : {prefix w t} + {~ prefix w t}.
Proof.
  revert t. induction w as [|c w IH]; intros t; [left; now exists t|].
  destruct t as [|d t]; [right; intros [r [=]]|].
  destruct (N.eq_dec c d) as [->|Ne].
  - destruct (IH t) as [H|H]; [left|right].
    + destruct H as [r ->]. now exists r.
    + intros [r E]. apply H. injection E as ->. now exists r.
  - right. intros [r E]. injection E as <- _. congruence.
Qed.

(** Every text is some copies of a word and a rest that does not begin with it. *)
Lemma copies_exist w t : w <> [] -> exists n rest, t = copies n w ++ rest /\ ~ prefix w rest.
Proof.
  intros N. remember (length t) as k eqn:E. revert t E.
  induction k as [k IH] using lt_wf_ind. intros t ->. destruct (prefix_dec w t) as [[r ->]|H].
  - destruct (IH (length r)) with (t := r) as (n & rest & -> & H); auto.
    { rewrite app_length. destruct w; [congruence|]. cbn. lia. }
    exists (S n), rest. split; auto. unfold copies. cbn [repeat concat]. now rewrite <- app_assoc.
  - exists 0, t. auto.
Qed.

Lemma edge_dec cs n : {boundary cs n} + {~ boundary cs n}.
Proof.
  destruct (split_chars cs n) as [[a b]|] eqn:E.
  - left. apply split_chars_sound in E. exists a, b. intuition.
  - right. now apply split_chars_none.
Qed.

Section Words.
  Context {O : Type} (w : list char) (f : unit -> O).
  Notation loop fuel := (repeat_loop fuel (Map (atom (Str w)) f)).

  Lemma atom_word (s : strref) rest : chars (sr_str s) = w ++ rest ->
    exists s', parse (Map (atom (Str w)) f) s = Ret (Ok (f tt) s') /\ chars (sr_str s') = rest.
  Proof.
    intros E. destruct (atom_strref_exact w s) as [H _]. destruct (H rest E) as (s' & P & _ & T).
    exists s'. split; auto. cbn [parse Map]. unfold map_parse. cbn [parse atom closure]. rewrite P. reflexivity.
  Qed.

  Lemma atom_no_word (s : strref) : ~ prefix w (chars (sr_str s)) ->
    (~ word_breaks w (chars (sr_str s)) -> parse (Map (atom (Str w)) f) s = Ret (Err (MkMiss tt) s)) /\
    (word_breaks w (chars (sr_str s)) -> parse (Map (atom (Str w)) f) s = Panic).
  Proof.
    intros N. destruct (atom_strref_exact w s) as [_ H]. destruct (H N) as [H1 H2].
    unfold word_breaks. cbn [parse Map]. unfold map_parse. cbn [parse atom closure].
    destruct (Nat.leb_spec (chars_len w) (chars_len (chars (sr_str s)))) as [L|L].
    - destruct (H1 L) as [K1 K2]. split; intros B.
      + destruct (edge_dec (chars (sr_str s)) (chars_len w)) as [D|D]; [|contradiction]. now rewrite (K1 D).
      + now rewrite (K2 B).
    - destruct (H2 L) as [K1 K2]. split; intros B.
      + destruct (edge_dec w (chars_len (chars (sr_str s)))) as [D|D]; [|contradiction]. now rewrite (K1 D).
      + now rewrite (K2 B).
  Qed.

  Lemma words_loop n : forall (s : strref) rest buf fuel, chars (sr_str s) = copies n w ++ rest -> ~ prefix w rest -> n < fuel ->
    (~ word_breaks w rest -> exists s', loop fuel buf s = Ret (Ok (buf ++ repeat (f tt) n, MkMiss tt) s') /\ chars (sr_str s') = rest) /\
    (word_breaks w rest -> loop fuel buf s = Panic).
  Proof.
    induction n as [|n IH]; intros s rest buf fuel E N L; (destruct fuel as [|fuel]; [lia|]); cbn [repeat_loop].
    - cbn in E. destruct (atom_no_word s) as [H1 H2]; [now rewrite E|]. rewrite E in H1, H2. split; intros B.
      + rewrite (H1 B). cbn [bind should_terminate pe_miss].
        rewrite (rewind_anchor str_lawful s s (reach_refl str_lawful s)). cbn. exists s. rewrite app_nil_r. auto.
      + rewrite (H2 B). reflexivity.
    - unfold copies in E. cbn [repeat concat] in E. rewrite <- app_assoc in E.
      destruct (atom_word s _ E) as (s' & P & T). rewrite P. cbn [bind].
      destruct (IH s' rest (buf ++ [f tt]) fuel T N) as [H1 H2]; [lia|]. split; intros B.
      + destruct (H1 B) as (s2 & P2 & T2). exists s2. split; auto. rewrite P2. cbn [repeat]. now rewrite <- app_assoc.
      + auto.
  Qed.
End Words.

(** ** C76 *)
(** Repeating a word reads exactly the leading copies of it, or panics when the
    text after them cannot be cut at the length of the word. *)
Theorem C76_repeated_word {O} (w : list char) (f : unit -> O) n (s : strref) rest fuel :
  chars (sr_str s) = copies n w ++ rest -> ~ prefix w rest -> n < fuel ->
  (~ word_breaks w rest -> exists s',
     parse (Repeat fuel (Map (atom (Str w)) f)) s = Ret (Ok (repeat (f tt) n, MkMiss tt) s') /\ chars (sr_str s') = rest) /\
  (word_breaks w rest -> parse (Repeat fuel (Map (atom (Str w)) f)) s = Panic).
Proof. intros E N L. exact (words_loop w f n s rest [] fuel E N L). Qed.

(** An empty word is repeated for ever. *)
Theorem C76_empty_word {O} (f : unit -> O) (s : strref) fuel :
  parse (Repeat fuel (Map (atom (Str [])) f)) s = OutOfFuel.
Proof.
  cbn [parse Repeat]. unfold repeat_parse. generalize (@nil O). revert s.
  induction fuel as [|fuel IH]; intros s buf; [reflexivity|]. cbn [repeat_loop].
  destruct (atom_word [] f s (chars (sr_str s)) eq_refl) as (s' & P & _). rewrite P. cbn [bind]. apply IH.
Qed.

(** The example prints every leading "text" and the rest, never reaches its
    [unreachable!()], and panics only where [str::split_at] does. *)
Theorem C76_example budget (s : strref) : length (chars (sr_str s)) < budget ->
  exists n rest, chars (sr_str s) = copies n word ++ rest /\ ~ prefix word rest /\
    (chars_len rest < 4 \/ boundary rest 4 -> repeat_example budget s = Ret (repeat word n, rest)) /\
    (~ (chars_len rest < 4 \/ boundary rest 4) -> repeat_example budget s = Panic).
Proof.
  intros L. destruct (copies_exist word (chars (sr_str s))) as (n & rest & E & N); [discriminate|].
  exists n, rest. split; auto. split; auto.
  assert (n < budget) as Ln.
  { assert (n <= length (copies n word)) as K.
    { clear. unfold copies. induction n as [|n IH]; [cbn; lia|]. cbn [repeat concat]. rewrite app_length. cbn [length word]. lia. }
    rewrite E, app_length in L. unfold char in *. lia. }
  destruct (C76_repeated_word word (fun _ => word) n s rest budget E N Ln) as [H1 H2].
  assert (word_breaks word rest <-> ~ (chars_len rest < 4 \/ boundary rest 4)) as W.
  { unfold word_breaks. change (chars_len word) with 4. destruct (Nat.leb_spec 4 (chars_len rest)) as [Lr|Lr].
    - split; [intros B [K|K]; [lia|contradiction]|tauto].
    - split; [|intros K; exfalso; tauto]. intros B. exfalso. apply B.
      destruct (chars_len rest) as [|[|[|[|k]]]] eqn:C; try lia.
      + exists [], word. auto.
      + exists [116]%N, [101; 120; 116]%N. auto.
      + exists [116; 101]%N, [120; 116]%N. auto.
      + exists [116; 101; 120]%N, [116]%N. auto. }
  unfold repeat_example, repeat_parser. split; intros B.
  - destruct H1 as (s' & P & T); [tauto|]. rewrite P. cbn. now rewrite T.
  - rewrite H2 by tauto. reflexivity.
Qed.

(** The input of the example, and one on which it panics. *)
Example C76_case : repeat_example 9 (StrRef 1 0 (Str (word ++ word ++ word ++ [97; 97; 97; 97]%N)))
  = Ret ([word; word; word], [97; 97; 97; 97]%N).
Proof. reflexivity. Qed.
Example C76_case_panic : repeat_example 9 (StrRef 1 0 (Str (word ++ [116; 101; 120; 233]%N))) = Panic /\
  word_breaks word [116; 101; 120; 233]%N.
Proof.
  split; [reflexivity|]. unfold word_breaks. change (chars_len word <=? chars_len [116; 101; 120; 233]%N) with true. apply split_chars_none. reflexivity.
Qed.
Example C76_case_empty : parse (Repeat 5 (Map (atom (Str [])) (fun u => u))) (StrRef 1 0 (Str [97]%N)) = OutOfFuel.
Proof. reflexivity. Qed.

Print Assumptions C76_repeated_word.
Print Assumptions C76_empty_word.
Print Assumptions C76_example.
