(** * P_Brackets: property C107, operator expressions with brackets. *)
From Verif Require Import S_Brackets L_Brackets L_Comb2 L_Seq M_Prim P_BinExpr.
From Coq Require Import Lia.

Section Texts.
  Context {A Op : Type} {OP : Operator Op}.

  (** A text means one expression at most, and so does what stands before
      anything that is no operator. *)
  Theorem C107_unambiguous (e e' : tree A Op) cs cs' r r' : means cs e -> means cs' e' ->
    no_operator r -> no_operator r' -> cs ++ r = cs' ++ r' -> cs = cs' /\ e = e'.
  Proof. intros (o & W) (o' & W'). eapply unambiguous; eauto. Qed.

  (** [show] writes what it is given, no text is shorter, and none that is as short differs. *)
  Theorem C107_fewest (e : tree A Op) :
    means (show e) e /\
    forall cs, means cs e -> length (show e) <= length cs /\ (length cs = length (show e) -> cs = show e).
  Proof.
    split; [exists (root e); apply show_writes|]. intros cs (o & W). destruct (shortest e cs o W) as (H1 & H2 & _). auto.
  Qed.
End Texts.

Section Parser.
  Context {S An : Type} {RS : RewindSequence S An} {reach : S -> S -> Prop} (LR : lawful_rewind reach).
  Context {A Op EA EO EB EC : Type} {OP : Operator Op} {PA : ParseError EA} {PO : ParseError EO} {PB : ParseError EB} {PC : ParseError EC}.
  Context (atom : dparser S A EA) (op : dparser S Op EO) (opening : dparser S unit EB) (closing : dparser S unit EC).
  Context (usize_max : nat) (overflow_checks : bool).
  (** The four parsers read one token each and give up without a fatal error. *)
  Context (tokens : S -> list (token A Op)).
  Context (La : lexes tokens atom (fun t => match t with Atom a => Some a | _ => None end)).
  Context (Lo : lexes tokens op (fun t => match t with Sym o => Some o | _ => None end)).
  Context (Lb : lexes tokens opening (fun t => match t with Open => Some tt | _ => None end)).
  Context (Lc : lexes tokens closing (fun t => match t with Close => Some tt | _ => None end)).
  Context (Fa : forward reach (parse atom)) (Fo : forward reach (parse op)) (Fb : forward reach (parse opening)) (Fc : forward reach (parse closing)).
  Context (Hmax : below_max usize_max op).
  Notation read fuel d := (parse (expr atom op opening closing usize_max overflow_checks fuel d)).

  (** What is read means what is returned. *)
  Theorem C107_reads fuel d s e s' : read fuel d s = Ret (Ok e s') ->
    exists cs, tokens s = cs ++ tokens s' /\ means cs e.
  Proof.
    intros H. destruct (xp_sound LR atom op opening closing usize_max overflow_checks tokens La Lo Lb Lc Fa Fo Fb Fc Hmax fuel d s e s' H)
      as (cs & o & E & W). exists cs. split; [exact E|]. exists o. exact W.
  Qed.

  (** Whatever means something is read, to its end, and what it means is returned. *)
  Theorem C107_found fuel d s e cs r : means cs e -> tokens s = cs ++ r -> no_operator r -> length cs < d -> length cs < fuel ->
    exists s', read fuel d s = Ret (Ok e s') /\ tokens s' = r.
  Proof.
    intros (o & W) E Nr Ld Lf.
    exact (xp_found LR atom op opening closing usize_max overflow_checks tokens La Lo Lb Lc Fa Fo Fb Fc Hmax fuel d s e cs o r W E Nr Ld Lf).
  Qed.

  (** Every text is answered, and nothing that means something goes further than what is read. *)
  Theorem C107_longest fuel d s : length (tokens s) < d -> length (tokens s) < fuel ->
    match read fuel d s with
    | Ret (Ok _ s') => forall cs e r, means cs e -> tokens s = cs ++ r -> length (tokens s') <= length r
    | Ret (Err _ _) => forall cs e r, means cs e -> tokens s <> cs ++ r
    | _ => False
    end.
  Proof.
    intros Ld Lf.
    destruct (xp_answers LR atom op opening closing usize_max overflow_checks tokens La Lo Lb Lc Fa Fo Fb Fc Hmax fuel d s Ld Lf)
      as [(e0 & s' & H)|(l & H)]; rewrite H; intros cs e r (o & W); [intros E|intros E];
      destruct (xp_longest LR atom op opening closing usize_max overflow_checks tokens La Lo Lb Lc Fa Fo Fb Fc Hmax fuel d s e cs o r Ld Lf W E)
        as (e' & s'' & H' & L); [congruence|congruence].
  Qed.

  (** The whole text is read exactly if it means something. *)
  Theorem C107_whole fuel d s e : length (tokens s) < d -> length (tokens s) < fuel ->
    (exists s', read fuel d s = Ret (Ok e s') /\ tokens s' = []) <-> means (tokens s) e.
  Proof.
    intros Ld Lf. split.
    - intros (s' & H & N0). destruct (C107_reads _ _ _ _ _ H) as (cs & E & M). rewrite N0, app_nil_r in E. now rewrite E.
    - intros M. apply C107_found with (cs := tokens s); auto; [now rewrite app_nil_r|exact Logic.I].
  Qed.

  (** What is shown with the fewest brackets is read back. *)
  Theorem C107_round_trip fuel d s e : tokens s = show e -> length (show e) < d -> length (show e) < fuel ->
    exists s', read fuel d s = Ret (Ok e s') /\ tokens s' = [].
  Proof. intros E Ld Lf. apply C107_whole; [congruence|congruence|]. rewrite E. apply C107_fewest. Qed.
End Parser.

(** ** Slices of tokens *)
Section Slices.
  Context {A Op : Type} {OP : Operator Op}.
  Context (usize_max : nat) (overflow_checks : bool) (Hmax : forall o : Op, associativity o = Left -> precedence o < usize_max).
  Notation tok := (token A Op).

  (** One item, by [any_item] and [and_then]. *)
  Definition one {O} (pick : tok -> option O) : dparser (slice tok) O (Miss unit) :=
    AndThen (fun e => e) any_item (fun t => match pick t with Some o => ROk o | None => RErr (MkMiss tt) end).
  Lemma one_lexes {O} (pick : tok -> option O) : lexes (@sl_data tok) (one pick) pick.
  Proof.
    intros [al off [|t l]]; cbn; [exists (MkMiss tt); eexists; split; reflexivity|].
    unfold and_then_parse. cbn. unfold any_item_parse. cbn. destruct (pick t); [|exists (MkMiss tt)]; eexists; split; reflexivity.
  Qed.
  Lemma one_forward {O} (pick : tok -> option O) : forward (@later_slice tok) (parse (one pick)).
  Proof. apply and_then_forward. apply any_item_forward_slice. Qed.

  Definition calculator fuel d : dparser (slice tok) (tree A Op) (Miss unit) :=
    expr (one (fun t => match t with Atom a => Some a | _ => None end)) (one (fun t => match t with Sym o => Some o | _ => None end))
      (one (fun t => match t with Open => Some tt | _ => None end)) (one (fun t => match t with Close => Some tt | _ => None end))
      usize_max overflow_checks fuel d.

  Theorem C107_slices fuel d s : length (sl_data s) < d -> length (sl_data s) < fuel ->
    (forall e, (exists s', parse (calculator fuel d) s = Ret (Ok e s') /\ sl_data s' = []) <-> means (sl_data s) e) /\
    (forall e, sl_data s = show e -> exists s', parse (calculator fuel d) s = Ret (Ok e s') /\ sl_data s' = []).
  Proof.
    intros Ld Lf. split; intros e.
    - apply (C107_whole slice_lawful) with (tokens := @sl_data tok); auto using one_lexes, one_forward. intros s0 o r _. apply Hmax.
    - intros E. apply (C107_round_trip slice_lawful) with (tokens := @sl_data tok); auto using one_lexes, one_forward; try congruence. intros s0 o r _. apply Hmax.
  Qed.
End Slices.

(** ** Cases *)

(** Two operators of one precedence that group to different sides, and a third above them. *)
Inductive sign := Lft | Rgt | Top.
#[export] Instance sign_operator : Operator sign := {
  precedence o := match o with Top => 5 | _ => 4 end;
  associativity o := match o with Lft => Left | _ => Right end }.
Lemma sign_max o : associativity o = Left -> precedence o < 9.
Proof. destruct o; cbn; intros; lia. Qed.

(** 1 < ((2 > 3) ^ 4) > 5, of which no brackets but these are needed. *)
Definition case_tree : tree nat sign := Node (Node (Leaf 1) Lft (Node (Node (Leaf 2) Rgt (Leaf 3)) Top (Leaf 4))) Rgt (Leaf 5).
Example C107_case_show : show case_tree =
  [Atom 1; Sym Lft; Open; Atom 2; Sym Rgt; Atom 3; Close; Sym Top; Atom 4; Sym Rgt; Atom 5].
Proof. reflexivity. Qed.
Example C107_case_reads :
  parse (calculator 9 true 12 12) (Slice 3 0 (show case_tree)) = Ret (Ok case_tree (Slice 3 11 [])).
Proof. vm_compute. reflexivity. Qed.
(** A bracket more does not matter, a bracket less does. *)
Example C107_case_more :
  parse (calculator 9 true 20 20) (Slice 3 0 [Open; Atom 1; Sym Lft; Open; Open; Atom 2; Sym Rgt; Atom 3; Close; Sym Top; Atom 4; Close; Close; Sym Rgt; Atom 5])
  = Ret (Ok case_tree (Slice 3 15 [])).
Proof. vm_compute. reflexivity. Qed.
Example C107_case_less : ~ means [Atom 1; Sym Lft; Atom 2; Sym Rgt; Atom 3; Sym Top; Atom 4; Sym Rgt; Atom 5] case_tree.
Proof. intros M. apply (proj2 (C107_fewest case_tree)) in M. cbn in M. lia. Qed.
Example C107_case_whole : exists s', parse (calculator 9 true 12 12) (Slice 3 0 (show case_tree)) = Ret (Ok case_tree s') /\ sl_data s' = [].
Proof. apply (C107_slices 9 true sign_max 12 12); cbn; auto; lia. Qed.
(** An operator without a term after it, and a bracket nobody opened, are left. *)
Example C107_case_left : exists s',
  parse (calculator 9 true 20 20) (Slice 3 0 [Atom 1; Sym Lft; Atom 2; Sym Rgt; Close; Atom 5]) = Ret (Ok (Node (Leaf 1) Lft (Leaf 2)) s') /\
  sl_data s' = [Sym Rgt; Close; Atom 5].
Proof. eexists. vm_compute. split; reflexivity. Qed.

Print Assumptions C107_unambiguous.
Print Assumptions C107_fewest.
Print Assumptions C107_reads.
Print Assumptions C107_found.
Print Assumptions C107_longest.
Print Assumptions C107_whole.
Print Assumptions C107_round_trip.
Print Assumptions C107_slices.
