(** * L_Eval: evaluation of the example's expressions. *)
From Coq Require Import Lia.
From Verif Require Export S_Eval.

Scheme Expr_mut := Induction for Expr Sort Prop with Term_mut := Induction for Term Sort Prop.

(** Induction over the expressions inside. *)
Lemma expr_ind' (P : Expr -> Prop) :
  (forall n, P (ETerm (Integer n))) ->
  (forall e, P e -> P (ETerm (Parenthesized e))) ->
  (forall l o r, P l -> P r -> P (BinOp l o r)) ->
  forall e, P e.
Proof.
  intros I B O. apply (Expr_mut P (fun t => P (ETerm t))); auto.
Qed.

Lemma quotient_unique (x y z m z' m' : Z) :
  (x = y * z + m -> 0 <= m < y -> x = y * z' + m' -> 0 <= m' < y -> z = z')%Z.
Proof.
  intros A B C D. apply (Z.div_mod_unique y z z' m m'); lia.
Qed.

Lemma denotes_unique e : forall z z', denotes e z -> denotes e z' -> z = z'.
Proof.
  induction e as [n|e IH|l o r IHl IHr] using expr_ind'; intros z z' D D'; inversion D; inversion D'; subst; auto;
    try discriminate;
    repeat match goal with
    | A : denotes l ?x, B : denotes l ?y |- _ => assert (x = y) by (exact (IHl _ _ A B)); clear A
    | A : denotes r ?x, B : denotes r ?y |- _ => assert (x = y) by (exact (IHr _ _ A B)); clear A
    end; subst; auto.
  match goal with H : (?y * z + ?m = ?y * z' + ?m')%Z |- _ => apply (Z.div_mod_unique y z z' m m'); lia end.
Qed.

Lemma residue_unique max e : forall z z', residue max e z -> residue max e z' -> z = z'.
Proof.
  induction e as [n|e IH|l o r IHl IHr] using expr_ind'; intros z z' D D'; inversion D; inversion D'; subst; auto;
    try discriminate;
    repeat match goal with
    | A : residue max l ?x, B : residue max l ?y |- _ => assert (x = y) by (exact (IHl _ _ A B)); clear A
    | A : residue max r ?x, B : residue max r ?y |- _ => assert (x = y) by (exact (IHr _ _ A B)); clear A
    end; subst; auto.
  match goal with H : (?y * z + ?m = ?y * z' + ?m')%Z |- _ => apply (Z.div_mod_unique y z z' m m'); lia end.
Qed.

Lemma nat_div_spec l r : r <> 0 ->
  (Z.of_nat l = Z.of_nat r * Z.of_nat (l / r) + Z.of_nat (l mod r))%Z /\ (0 <= Z.of_nat (l mod r) < Z.of_nat r)%Z.
Proof.
  intros N. pose proof (Nat.div_mod l r N). pose proof (Nat.mod_upper_bound l r N). split; lia.
Qed.

Lemma rep_left max l o r : representable max (BinOp l o r) -> representable max l.
Proof. intros R p P. apply R. now apply part_left. Qed.
Lemma rep_right max l o r : representable max (BinOp l o r) -> representable max r.
Proof. intros R p P. apply R. now apply part_right. Qed.
Lemma rep_paren max e : representable max (ETerm (Parenthesized e)) -> representable max e.
Proof. intros R p P. apply R. now apply part_paren. Qed.

Lemma rep_bin max l o r z : representable max l -> representable max r ->
  denotes (BinOp l o r) z -> (0 <= z <= Z.of_nat max)%Z -> representable max (BinOp l o r).
Proof. intros L R D B p P. inversion P; subst; eauto. Qed.

(** ** With overflow checks *)
Lemma eval_checked max e : fits max e ->
  (exists n, eval max true e = Ret n /\ representable max e /\ denotes e (Z.of_nat n) /\ n <= max) \/
  (eval max true e = Panic /\ ~ representable max e).
Proof.
  induction e as [n|e IH|l o r IHl IHr] using expr_ind'; intros F.
  - left. exists n. split; [reflexivity|]. cbn in F. split; [|split; [constructor|auto]].
    intros p P. inversion P; subst. exists (Z.of_nat n). split; [constructor|lia].
  - destruct (IH F) as [(n & E & R & D & B)|(E & R)].
    + left. exists n. split; [exact E|]. split; [|split; [now constructor|auto]].
      intros p P. inversion P; subst; auto. exists (Z.of_nat n). split; [now constructor|lia].
    + right. split; [exact E|]. intros R'. apply R. now apply rep_paren.
  - destruct F as [Fl Fr]. cbn [eval].
    destruct (IHl Fl) as [(x & El & Rl & Dl & Bl)|(El & Rl)]; rewrite El; cbn [bind];
      [|right; split; [reflexivity|]; intros R; apply Rl; eapply rep_left; eauto].
    destruct (IHr Fr) as [(y & Er & Rr & Dr & Br)|(Er & Rr)]; rewrite Er; cbn [bind];
      [|right; split; [reflexivity|]; intros R; apply Rr; eapply rep_right; eauto].
    assert (OK : forall n, denotes (BinOp l o r) (Z.of_nat n) -> n <= max ->
      representable max (BinOp l o r) /\ denotes (BinOp l o r) (Z.of_nat n) /\ n <= max).
    { intros n D B. split; [|auto]. eapply rep_bin; eauto. lia. }
    assert (KO : forall z, denotes (BinOp l o r) z -> ~ (0 <= z <= Z.of_nat max)%Z -> ~ representable max (BinOp l o r)).
    { intros z D B R. destruct (R _ (part_self _)) as (z' & D' & B').
      now rewrite (denotes_unique _ _ _ D' D) in B'. }
    destruct o; cbn [apply_op]; unfold checked.
    + assert (D : denotes (BinOp l Add r) (Z.of_nat (x + y))) by (rewrite Nat2Z.inj_add; now constructor).
      destruct (x + y <=? max) eqn:E; [apply Nat.leb_le in E; left; eauto|apply Nat.leb_gt in E].
      right. split; [reflexivity|]. apply (KO _ D). lia.
    + destruct (y <=? x) eqn:E; [apply Nat.leb_le in E|apply Nat.leb_gt in E].
      * left. exists (x - y). split; [reflexivity|]. apply OK; [|lia]. rewrite Nat2Z.inj_sub by auto. now constructor.
      * right. split; [reflexivity|]. apply (KO (Z.of_nat x - Z.of_nat y)%Z); [now constructor|lia].
    + assert (D : denotes (BinOp l Mul r) (Z.of_nat (x * y))) by (rewrite Nat2Z.inj_mul; now constructor).
      destruct (x * y <=? max) eqn:E; [apply Nat.leb_le in E; left; eauto|apply Nat.leb_gt in E].
      right. split; [reflexivity|]. apply (KO _ D). lia.
    + destruct (y =? 0) eqn:E; [apply Nat.eqb_eq in E|apply Nat.eqb_neq in E].
      * right. split; [reflexivity|]. intros R. destruct (R _ (part_self _)) as (z & D & _).
        inversion D; subst.
        match goal with H : denotes r ?v |- _ => rewrite (denotes_unique _ _ _ H Dr) in *; lia end.
      * left. exists (x / y). split; [reflexivity|]. apply OK.
        -- destruct (nat_div_spec x y E). econstructor; eauto.
        -- assert (x / y <= x) by (apply Nat.div_le_upper_bound; nia). lia.
Qed.

(** ** Without *)
Lemma mod_of_nat a max : Z.of_nat (a mod S max) = (Z.of_nat a mod (Z.of_nat max + 1))%Z.
Proof. rewrite Nat2Z.inj_mod. f_equal. lia. Qed.

Lemma wrap_small a max : a <= max -> Z.of_nat a = (Z.of_nat a mod (Z.of_nat max + 1))%Z.
Proof. intros L. symmetry. apply Z.mod_small. lia. Qed.

Lemma eval_wrapping max e : fits max e ->
  (exists n, eval max false e = Ret n /\ residue max e (Z.of_nat n) /\ n <= max) \/
  (eval max false e = Panic /\ forall z, ~ residue max e z).
Proof.
  induction e as [n|e IH|l o r IHl IHr] using expr_ind'; intros F.
  - left. exists n. split; [reflexivity|]. split; [constructor|exact F].
  - destruct (IH F) as [(n & E & R & B)|(E & R)].
    + left. exists n. split; [exact E|]. split; [now constructor|auto].
    + right. split; [exact E|]. intros z R'. inversion R'; subst. eapply R; eauto.
  - destruct F as [Fl Fr]. cbn [eval].
    destruct (IHl Fl) as [(x & El & Rl & Bl)|(El & Rl)]; rewrite El; cbn [bind];
      [|right; split; [reflexivity|]; intros z R; inversion R; subst; eapply Rl; eauto].
    destruct (IHr Fr) as [(y & Er & Rr & Br)|(Er & Rr)]; rewrite Er; cbn [bind];
      [|right; split; [reflexivity|]; intros z R; inversion R; subst; eapply Rr; eauto].
    assert (WR : forall a, residue max (BinOp l o r) (Z.of_nat a mod (Z.of_nat max + 1)) ->
      exists n, checked max false a = Ret n /\ residue max (BinOp l o r) (Z.of_nat n) /\ n <= max).
    { intros a R. unfold checked. destruct (a <=? max) eqn:E.
      - apply Nat.leb_le in E. exists a. rewrite <- wrap_small in R by auto. auto.
      - exists (a mod S max). rewrite mod_of_nat. split; [reflexivity|]. split; [auto|].
        pose proof (Nat.mod_upper_bound a (S max)). lia. }
    destruct o; cbn [apply_op].
    + left. apply WR. rewrite Nat2Z.inj_add. now constructor.
    + left. assert (R : residue max (BinOp l Sub r) ((Z.of_nat x - Z.of_nat y) mod (Z.of_nat max + 1))) by now constructor.
      destruct (y <=? x) eqn:E; [apply Nat.leb_le in E|apply Nat.leb_gt in E].
      * exists (x - y). split; [reflexivity|]. rewrite <- Nat2Z.inj_sub, <- wrap_small in R by lia. split; [auto|lia].
      * exists (x + S max - y). split; [reflexivity|]. split; [|lia].
        replace (Z.of_nat (x + S max - y)) with ((Z.of_nat x - Z.of_nat y) mod (Z.of_nat max + 1))%Z; [auto|].
        symmetry. apply (Z.mod_unique_pos _ _ (-1)); lia.
    + left. apply WR. rewrite Nat2Z.inj_mul. now constructor.
    + destruct (y =? 0) eqn:E; [apply Nat.eqb_eq in E|apply Nat.eqb_neq in E].
      * right. split; [reflexivity|]. intros z R. inversion R; subst.
        match goal with H : residue _ r ?v |- _ => rewrite (residue_unique _ _ _ _ H Rr) in *; lia end.
      * left. exists (x / y). split; [reflexivity|]. split.
        -- destruct (nat_div_spec x y E). econstructor; eauto.
        -- assert (x / y <= x) by (apply Nat.div_le_upper_bound; nia). lia.
Qed.

Lemma residue_representable max e : representable max e -> forall z, denotes e z -> residue max e z.
Proof.
  induction e as [n|e IH|l o r IHl IHr] using expr_ind'; intros R z D.
  - inversion D; subst. constructor.
  - inversion D; subst. constructor. apply IH; auto. now apply rep_paren.
  - specialize (IHl (rep_left _ _ _ _ R)). specialize (IHr (rep_right _ _ _ _ R)).
    destruct (R _ (part_self _)) as (z' & D' & B). rewrite (denotes_unique _ _ _ D' D) in B.
    inversion D; subst;
      try (match goal with |- residue _ _ ?e => replace e with (e mod (Z.of_nat max + 1))%Z by (apply Z.mod_small; lia) end;
           now constructor; auto).
    econstructor; eauto.
Qed.

Lemma residue_no_division max e : fits max e -> no_division e ->
  exists z, denotes e z /\ residue max e (z mod (Z.of_nat max + 1))%Z.
Proof.
  induction e as [n|e IH|l o r IHl IHr] using expr_ind'; intros F N.
  - exists (Z.of_nat n). split; [constructor|]. rewrite <- wrap_small by exact F. constructor.
  - destruct (IH F) as (z & D & R). { intros l r P. apply (N l r). now apply part_paren. }
    exists z. split; now constructor.
  - destruct F as [Fl Fr].
    destruct (IHl Fl) as (x & Dl & Rl). { intros a b P. apply (N a b). now apply part_left. }
    destruct (IHr Fr) as (y & Dr & Rr). { intros a b P. apply (N a b). now apply part_right. }
    destruct o.
    + exists (x + y)%Z. split; [now constructor|]. rewrite Zplus_mod. now constructor.
    + exists (x - y)%Z. split; [now constructor|]. rewrite Zminus_mod. now constructor.
    + exists (x * y)%Z. split; [now constructor|]. rewrite Zmult_mod. now constructor.
    + destruct (N l r). constructor.
Qed.
