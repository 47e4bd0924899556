(** * P_Contract: C81, the provided methods of [BufferWriter]; C49 for whole programs. *)
From Coq Require Import Lia.
From Verif Require Import L_Writer S_Contract.

Local Arguments Nat.ltb : simpl never.
Local Arguments Nat.leb : simpl never.
Local Arguments Nat.eqb : simpl never.
Local Arguments Nat.mul : simpl never.

Section Contract.
  Context {W T E R : Type} (B : bwriter W T E R) (rep : W -> vec T -> Prop) (KB : keeps B rep).
  Implicit Types (v : vec T) (xs : list T) (w : W).

  Lemma k_read_range w v xs rest : rep w v -> cells v = map Some xs ++ rest -> forall n i,
    i + n <= length xs -> read_range B w i n = Ret (firstn n (skipn i xs)).
  Proof.
    intros RP C. induction n as [|n IH]; intros i L; [reflexivity|]. cbn [read_range].
    destruct (nth_error xs i) as [y|] eqn:N; [|apply nth_error_None in N; lia].
    assert (RD : vec_read v i = Ret y).
    { unfold vec_read. rewrite C, nth_error_app1 by (rewrite map_length; lia). now rewrite nth_error_map, N. }
    rewrite (k_read KB _ _ _ RP RD). cbn [bind]. rewrite IH by lia. cbn [bind]. f_equal.
    apply nth_error_split in N as (a & b & -> & <-).
    replace (S (length a)) with (length a + 1) by lia. now rewrite <- skipn_add, skipn_length_app.
  Qed.

  Lemma k_write_range ys : forall w v xs rest, rep w v -> cells v = map Some xs ++ rest ->
    length xs + length ys <= vcap v ->
    exists w' v' rest', write_range B w (length xs) ys = Ret w' /\ rep w' v' /\
      cells v' = map Some (xs ++ ys) ++ rest' /\ vcap v' = vcap v /\ vlen v' = vlen v.
  Proof.
    induction ys as [|y ys IH]; intros w v xs rest RP C L; cbn [write_range length] in *.
    - exists w, v, rest. rewrite app_nil_r. auto.
    - assert (V : vec_write v (length xs) y = Ret (Vec (list_set (cells v) (length xs) (Some y)) (vlen v))).
      { unfold vec_write. now rewrite (proj2 (Nat.ltb_lt _ _)) by lia. }
      destruct (k_write KB _ _ _ _ RP V) as (w1 & W1 & RP1). rewrite W1. cbn [bind].
      destruct (write_cells _ _ _ _ _ C V) as (rest1 & C1 & VL & VC).
      destruct (IH w1 _ (xs ++ [y]) rest1 RP1 C1) as (w' & v' & rest' & A1 & A2 & A3 & A4 & A5).
      + rewrite VC, app_length. cbn. lia.
      + exists w', v', rest'. rewrite app_length, Nat.add_1_r in A1. rewrite <- app_assoc in A3. repeat split; auto; congruence.
  Qed.

  Lemma k_set w v xs rest : rep w v -> cells v = map Some xs ++ rest ->
    exists w' v', bw_set_len B w (length xs) = Ret w' /\ rep w' v' /\ holds v' xs /\ vcap v' = vcap v.
  Proof.
    intros RP C. assert (V : vec_set_len v (length xs) = Ret (Vec (cells v) (length xs))).
    { unfold vec_set_len, vcap. rewrite C, app_length, map_length. now rewrite (proj2 (Nat.leb_le _ _)) by lia. }
    destruct (k_set_len KB _ _ _ RP V) as (w' & E1 & E2). eexists _, _. split; [exact E1|]. split; [exact E2|].
    split; [exists rest; auto|reflexivity].
  Qed.

  (** [as_slice] is what was written. *)
  Theorem C81_as_slice w v xs : rep w v -> holds v xs -> as_slice B w = Ret xs.
  Proof.
    intros RP (rest & C & L). unfold as_slice. rewrite (k_len KB _ _ RP). cbn [bind].
    rewrite L, (k_read_range _ _ _ _ RP C) by lia. cbn. now rewrite firstn_all.
  Qed.

  (** Items stored over [as_mut_slice] replace those written, and change nothing else. *)
  Theorem C81_as_mut_slice w v xs f : rep w v -> holds v xs ->
    exists w' v', edit_slice B w f = Ret (w', f xs) /\ rep w' v' /\ holds v' (stored (f xs) xs) /\ vcap v' = vcap v.
  Proof.
    intros RP HD. pose proof (holds_cap _ _ HD) as LC. unfold edit_slice. rewrite (C81_as_slice w v xs RP HD). cbn [bind].
    destruct HD as (rest & C & L).
    destruct (k_write_range (stored (f xs) xs) w v [] (map Some xs ++ rest) RP C) as (w1 & v1 & rest1 & A1 & A2 & A3 & A4 & A5).
    - rewrite stored_length. exact LC.
    - cbn [length] in A1. rewrite A1. cbn [bind]. exists w1, v1. split; [reflexivity|]. split; [exact A2|]. split; [|exact A4].
      exists rest1. split; [exact A3|]. rewrite A5, L, stored_length. reflexivity.
  Qed.

  (** [push_item] appends while there is room, and hands the item back otherwise. *)
  Theorem C81_push_item w v xs x : rep w v -> holds v xs ->
    (length xs < vcap v -> exists w' v', push_item B w x = Ret (w', true) /\ rep w' v' /\ holds v' (xs ++ [x]) /\ vcap v' = vcap v) /\
    (length xs = vcap v -> push_item B w x = Ret (w, false)).
  Proof.
    intros RP (rest & C & L). unfold push_item. rewrite (k_len KB _ _ RP). cbn [bind]. rewrite (k_capacity KB _ _ RP), L. cbn [bind].
    split; intros Q.
    - rewrite (proj2 (Nat.eqb_neq _ _)) by lia.
      assert (V : vec_write v (length xs) x = Ret (Vec (list_set (cells v) (length xs) (Some x)) (vlen v))).
      { unfold vec_write. now rewrite (proj2 (Nat.ltb_lt _ _)) by lia. }
      destruct (k_write KB _ _ _ _ RP V) as (w1 & W1 & RP1). rewrite W1. cbn [bind].
      destruct (write_cells _ _ _ _ _ C V) as (rest1 & C1 & _ & VC).
      destruct (k_set _ _ _ _ RP1 C1) as (w2 & v2 & A1 & A2 & A3 & A4). rewrite app_length in A1. cbn [length] in A1.
      rewrite A1. cbn [bind]. exists w2, v2. repeat split; auto. congruence.
    - now rewrite (proj2 (Nat.eqb_eq _ _)).
  Qed.

  (** [spare_capacity] is all the room that is left, and writing there and setting the length appends. *)
  Theorem C81_spare_capacity w v xs ys : rep w v -> holds v xs ->
    spare_capacity B w = Ret (length xs, vcap v - length xs) /\
    exists w' v', fill B w ys = Ret (w', length (firstn (vcap v - length xs) ys)) /\ rep w' v' /\
      holds v' (xs ++ firstn (vcap v - length xs) ys) /\ vcap v' = vcap v.
  Proof.
    intros RP H. pose proof (holds_cap _ _ H) as LC. destruct H as (rest & C & L).
    assert (S : spare_capacity B w = Ret (length xs, vcap v - length xs)).
    { unfold spare_capacity. rewrite (k_len KB _ _ RP). cbn [bind]. rewrite (k_capacity KB _ _ RP), L. cbn [bind].
      unfold usub. now rewrite (proj2 (Nat.leb_le _ _)). }
    split; [exact S|]. unfold fill. rewrite S. cbn [bind]. set (zs := firstn _ ys).
    assert (length zs <= vcap v - length xs) by (unfold zs; rewrite firstn_length; lia).
    destruct (k_write_range zs w v xs rest RP C) as (w1 & v1 & rest1 & A1 & A2 & A3 & A4 & _); [lia|]. rewrite A1. cbn [bind].
    destruct (k_set _ _ _ _ A2 A3) as (w2 & v2 & B1 & B2 & B3 & B4). rewrite app_length in B1. rewrite B1. cbn [bind].
    exists w2, v2. repeat split; auto. congruence.
  Qed.

  (** [shrink_to] truncates, and panics when asked for more than there is. *)
  Theorem C81_shrink_to w v xs n : rep w v -> holds v xs ->
    (n <= length xs -> exists w' v', shrink_to B w n = Ret w' /\ rep w' v' /\ holds v' (firstn n xs) /\ vcap v' = vcap v) /\
    (length xs < n -> shrink_to B w n = Panic).
  Proof.
    intros RP (rest & C & L). unfold shrink_to. rewrite (k_len KB _ _ RP), L. cbn [bind]. split; intros Q.
    - rewrite (proj2 (Nat.leb_le _ _)) by auto. destruct (Nat.eqb_spec n (length xs)) as [->|N].
      + exists w, v. rewrite firstn_all. repeat split; auto. exists rest. auto.
      + rewrite (k_read_range _ _ _ _ RP C) by lia. cbn [bind].
        destruct (k_set w v (firstn n xs) (map Some (skipn n xs) ++ rest) RP) as (w2 & v2 & A1 & A2).
        { now rewrite C, app_assoc, <- map_app, firstn_skipn. }
        rewrite firstn_length, Nat.min_l in A1 by auto. exists w2, v2. auto.
    - now rewrite (proj2 (Nat.leb_gt _ _)).
  Qed.

  (** Any program runs as on an ideal buffer: no undefined behaviour, no other panic. *)
  Theorem C81_program {G} (p : wprog T E G) : forall w v xs tr, rep w v -> holds v xs ->
    match ideal (vcap v) p xs with
    | Some (ys, e) => exists w' v' tr', rep w' v' /\ holds v' ys /\ vcap v' = vcap v /\
        run_writer B p w tr = ends_as B w' e tr'
    | None => run_writer B p w tr = Panic
    end.
  Proof.
    induction p as [x k IH|ys k IH|n k IH|k IH|k IH|k IH|f k IH|g0|e g0]; intros w v xs tr RP HD; cbn [run_writer ideal].
    - destruct (C81_push_item w v xs x RP HD) as (P1 & P2). pose proof (holds_cap _ _ HD) as LC.
      destruct (Nat.ltb_spec (length xs) (vcap v)) as [Q|Q].
      + destruct (P1 Q) as (w' & v' & A1 & A2 & A3 & A4). rewrite A1. cbn [bind].
        specialize (IH true w' v' _ (tr ++ [PushOk x]) A2 A3). rewrite A4 in IH. exact IH.
      + rewrite P2 by lia. cbn [bind]. exact (IH false w v xs (tr ++ [PushErr x]) RP HD).
    - destruct (C81_spare_capacity w v xs ys RP HD) as (_ & w' & v' & A1 & A2 & A3 & A4). rewrite A1. cbn [bind]. cbv zeta.
      match goal with |- context [run_writer B _ w' ?t] => specialize (IH (length (firstn (vcap v - length xs) ys)) w' v' _ t A2 A3) end.
      rewrite A4 in IH. exact IH.
    - destruct (C81_shrink_to w v xs n RP HD) as (P1 & P2). destruct (Nat.leb_spec n (length xs)) as [Q|Q].
      + destruct (P1 Q) as (w' & v' & A1 & A2 & A3 & A4). rewrite A1. cbn [bind].
        specialize (IH w' v' _ (tr ++ [Shrunk n]) A2 A3). rewrite A4 in IH. exact IH.
      + now rewrite (P2 Q).
    - rewrite (k_len KB _ _ RP), (holds_len _ _ HD). cbn [bind]. exact (IH _ w v xs tr RP HD).
    - rewrite (k_capacity KB _ _ RP). cbn [bind]. exact (IH _ w v xs tr RP HD).
    - rewrite (C81_as_slice w v xs RP HD). cbn [bind]. exact (IH _ w v xs tr RP HD).
    - destruct (C81_as_mut_slice w v xs f RP HD) as (w' & v' & A1 & A2 & A3 & A4). rewrite A1. cbn [bind].
      specialize (IH w' v' _ (tr ++ [Edited (f xs)]) A2 A3). rewrite A4 in IH. exact IH.
    - exists w, v, tr. auto.
    - exists w, v, tr. auto.
  Qed.
End Contract.

(** ** Who keeps the contract *)
(** The writer of the validator does, over any writer that does. *)
Definition behind {W} (rep : W -> vec byte -> Prop) (u : uwriter W) (v : vec byte) : Prop :=
  exists pre, length pre = uw_buffered u /\ rep (uw_req u) (Vec (map Some pre ++ cells v) (length pre + vlen v)).

Lemma set_behind {X} (a b : list X) i x : list_set (a ++ b) (length a + i) x = a ++ list_set b i x.
Proof. induction a as [|y a IH]; [reflexivity|]. cbn. now rewrite IH. Qed.

Theorem C81_validator {C W E R} (K : control C W byte (uerror E) R) (rep : W -> vec byte -> Prop) :
  keeps (ct_writer K) rep -> keeps (uwriter_ops K) (behind rep).
Proof.
  intros KB. constructor; intros u v.
  - intros (pre & L & RP). cbn. rewrite (k_capacity KB _ _ RP). unfold vcap. cbn. rewrite app_length, map_length, L.
    unfold usub. rewrite (proj2 (Nat.leb_le _ _)) by lia. f_equal. lia.
  - intros (pre & L & RP). cbn. rewrite (k_len KB _ _ RP). cbn. rewrite L.
    unfold usub. rewrite (proj2 (Nat.leb_le _ _)) by lia. f_equal. lia.
  - intros i x (pre & L & RP) V. cbn. apply (k_read KB _ _ _ RP). unfold vec_read in *. cbn.
    rewrite <- L, <- (map_length Some pre), nth_error_app2 by lia. now replace (length (map Some pre) + i - length (map Some pre)) with i by lia.
  - intros i x v' (pre & L & RP) V. unfold vec_write in V. destruct (Nat.ltb_spec i (vcap v)) as [Q|Q]; [|discriminate].
    injection V as <-. assert (Z : vec_write (Vec (map Some pre ++ cells v) (length pre + vlen v)) (uw_buffered u + i) x
      = Ret (Vec (map Some pre ++ list_set (cells v) i (Some x)) (length pre + vlen v))).
    { unfold vec_write, vcap in *. cbn. rewrite app_length, map_length, (proj2 (Nat.ltb_lt _ _)) by lia.
      now rewrite <- L, <- (map_length Some pre), set_behind. }
    destruct (k_write KB _ _ _ _ RP Z) as (w' & E1 & E2). cbn. rewrite E1. cbn. eexists. split; [reflexivity|]. exists pre. auto.
  - intros n v' (pre & L & RP) V. unfold vec_set_len in V. destruct (Nat.leb_spec n (vcap v)) as [Q|Q]; [|discriminate].
    injection V as <-. assert (Z : vec_set_len (Vec (map Some pre ++ cells v) (length pre + vlen v)) (n + uw_buffered u)
      = Ret (Vec (map Some pre ++ cells v) (length pre + n))).
    { unfold vec_set_len, vcap in *. cbn. rewrite app_length, map_length, (proj2 (Nat.leb_le _ _)) by lia. do 2 f_equal. lia. }
    destruct (k_set_len KB _ _ _ RP Z) as (w' & E1 & E2). cbn. rewrite E1. cbn. eexists. split; [reflexivity|]. exists pre. auto.
Qed.

(** The writer of the generic sequence would, if [capacity] did not subtract what was written
    since (control.rs:83, [self.buf.capacity() - self.offset]). *)
Definition request_repaired (T E : Type) : bwriter (request T) T E (response T E * vec T) := {|
  bw_capacity := fun r => usub (vcap (rbuf r)) (roffset r);
  bw_len := bw_len (request_writer_ops T E); bw_read := bw_read (request_writer_ops T E);
  bw_write := bw_write (request_writer_ops T E); bw_set_len := bw_set_len (request_writer_ops T E);
  bw_advance := bw_advance (request_writer_ops T E); bw_cancel := bw_cancel (request_writer_ops T E) |}.

(** What the request holds behind its offset. *)
Definition holds_behind {T} (r : request T) (v : vec T) : Prop :=
  exists pre, length pre = roffset r /\ rbuf r = Vec (map Some pre ++ cells v) (length pre + vlen v).

Theorem C81_request_repaired T E : keeps (request_repaired T E) holds_behind.
Proof.
  constructor; intros [ta [cs n0] off] v; unfold holds_behind; cbn.
  - intros (pre & L & Q). injection Q as -> ->. subst off. unfold vcap, usub. cbn. rewrite app_length, map_length.
    rewrite (proj2 (Nat.leb_le _ _)) by lia. f_equal. lia.
  - intros (pre & L & Q). injection Q as -> ->. subst off. unfold usub. rewrite (proj2 (Nat.leb_le _ _)) by lia. f_equal. lia.
  - intros i x (pre & L & Q) V. injection Q as -> ->. subst off. unfold vec_read in *. cbn.
    rewrite <- (map_length Some pre), nth_error_app2 by lia. now replace (length (map Some pre) + i - length (map Some pre)) with i by lia.
  - intros i x v' (pre & L & Q) V. injection Q as -> ->. subst off. unfold vec_write, vcap in *. cbn.
    destruct (Nat.ltb_spec i (length (cells v))) as [Q|Q]; [|discriminate]. injection V as <-.
    rewrite app_length, map_length, (proj2 (Nat.ltb_lt _ _)) by lia. cbn. eexists. split; [reflexivity|]. cbn.
    exists pre. split; [reflexivity|]. f_equal. rewrite <- (map_length Some pre) at 1. apply set_behind.
  - intros n v' (pre & L & Q) V. injection Q as -> ->. subst off. unfold vec_set_len, vcap in *. cbn.
    destruct (Nat.leb_spec n (length (cells v))) as [Q|Q]; [|discriminate]. injection V as <-.
    rewrite app_length, map_length, (proj2 (Nat.leb_le _ _)) by lia. cbn. eexists. split; [reflexivity|]. cbn.
    exists pre. split; [reflexivity|]. f_equal. lia.
Qed.

(** ** C49 for whole programs *)
(** As it is, any program on the writer that was just requested does exactly this, undefined behaviour included. *)
Lemma lossy_ok {T E G} (p : wprog T E G) : forall pre (r : request T) xs tr, rinv pre r xs ->
  let room := vcap (rbuf r) - length pre in
  match lossy room p xs with
  | Ret (ys, e) => exists r' tr', rinv pre r' ys /\ to_append r' = to_append r /\ vcap (rbuf r') = vcap (rbuf r) /\
      run_writer (request_writer_ops T E) p r tr = ends_as (request_writer_ops T E) r' e tr'
  | Panic => run_writer (request_writer_ops T E) p r tr = Panic
  | UB => run_writer (request_writer_ops T E) p r tr = UB
  | OutOfFuel => False
  end.
Proof.
  set (ops := request_writer_ops T E).
  induction p as [x k IH|ys k IH|n k IH|k IH|k IH|k IH|f k IH|g0|e g0]; intros pre r xs tr I room; cbn [run_writer lossy].
  - assert (LC : length (pre ++ xs) <= vcap (rbuf r)) by (destruct I; now apply holds_cap). rewrite app_length in LC.
    destruct (Nat.eqb_spec (2 * length xs) room) as [Q|Q].
    + unfold ops. rewrite (r_push_err (E := E) pre r xs x I) by (rewrite app_length; unfold room in Q; lia). cbn [bind].
      exact (IH false pre r xs _ I).
    + destruct (Nat.ltb_spec (length xs) room) as [L|L].
      * destruct (r_push_ok (E := E) pre r xs x I) as (r' & P & I' & TA & VC); [rewrite app_length; unfold room in *; lia|rewrite app_length; unfold room in *; lia|].
        unfold ops. rewrite P. cbn [bind]. specialize (IH true pre r' (xs ++ [x]) (tr ++ [PushOk x]) I').
        cbv zeta in IH. rewrite VC in IH. fold room in IH. destruct (lossy room (k true) (xs ++ [x])) as [[zs e]| | |]; auto.
        destruct IH as (r2 & tr2 & A & B & C & D). exists r2, tr2. split; [auto|]. split; [congruence|]. split; [congruence|exact D].
      * unfold ops. rewrite (r_push_ub (E := E) pre r xs x I); [reflexivity|rewrite app_length; unfold room in *; lia|rewrite app_length; unfold room in *; lia].
  - assert (LC : length (pre ++ xs) <= vcap (rbuf r)) by (destruct I; now apply holds_cap). rewrite app_length in LC.
    destruct (Nat.ltb_spec room (2 * length xs)) as [Q|Q].
    + unfold fill, spare_capacity, ops. rewrite (r_len (E := E) _ _ _ I). cbn [bind]. rewrite (r_cap (E := E) _ _ _ I). cbn [bind].
      unfold usub. rewrite (proj2 (Nat.leb_gt _ _)) by (rewrite app_length; unfold room in *; lia). reflexivity.
    + assert (F : exists r', fill ops r ys = Ret (r', length (firstn (room - 2 * length xs) ys))).
      { unfold fill, spare_capacity, ops. rewrite (r_len (E := E) _ _ _ I). cbn [bind]. rewrite (r_cap (E := E) _ _ _ I). cbn [bind].
        unfold usub. rewrite (proj2 (Nat.leb_le _ _)) by (rewrite app_length; unfold room in *; lia). cbn [bind].
        replace (vcap (rbuf r) - length (pre ++ xs) - length xs) with (room - 2 * length xs) by (rewrite app_length; unfold room in *; lia).
        set (zs := firstn _ ys). assert (length zs <= room - 2 * length xs) by (unfold zs; rewrite firstn_length; lia).
        destruct I as ((rest & C & LN) & O).
        destruct (r_write_range (E := E) pre zs r xs O (ex_intro _ rest C)) as (r1 & E1 & T1 & O1 & C1 & rest1 & E2); [rewrite app_length; unfold room in *; lia|].
        rewrite E1. cbn [bind]. destruct (r_set_len (E := E) pre (xs ++ zs) r1 rest1 E2) as (r2 & E3 & _); [congruence|].
        rewrite app_length in E3. rewrite E3. cbn [bind]. eauto. }
      destruct F as (r' & F). destruct (r_fill_inv (E := E) pre r xs ys r' _ I F) as (I' & TA & VC).
      rewrite firstn_length_firstn in I'. rewrite F. cbn [bind]. cbv zeta.
      match goal with |- context [run_writer ops _ r' ?t] => specialize (IH (length (firstn (room - 2 * length xs) ys)) pre r' _ t I') end.
      cbv zeta in IH. rewrite VC in IH. fold room in IH. destruct (lossy room _ _) as [[zs e]| | |]; auto.
      destruct IH as (r2 & tr2 & A & B & C & D). exists r2, tr2. split; [auto|]. split; [congruence|]. split; [congruence|exact D].
  - destruct (Nat.leb_spec n (length xs)) as [Q|Q].
    + assert (F : exists r', shrink_to ops r n = Ret r').
      { unfold shrink_to, ops. rewrite (r_len (E := E) _ _ _ I). cbn [bind]. rewrite (proj2 (Nat.leb_le _ _)) by auto.
        destruct (Nat.eqb_spec n (length xs)) as [->|N]; [eauto|]. rewrite (r_read (E := E) _ _ _ I) by lia. cbn [bind].
        destruct I as ((rest & C & LN) & O).
        destruct (r_set_len (E := E) pre (firstn n xs) r (map Some (skipn n xs) ++ rest)) as (r2 & E3 & _); auto.
        { rewrite C, app_assoc, <- map_app, <- app_assoc, firstn_skipn. reflexivity. }
        rewrite firstn_length, Nat.min_l in E3 by auto. eauto. }
      destruct F as (r' & F). destruct (r_shrink_inv (E := E) pre r xs n r' I F) as (I' & TA & VC).
      rewrite F. cbn [bind]. specialize (IH pre r' _ (tr ++ [Shrunk n]) I'). cbv zeta in IH. rewrite VC in IH. fold room in IH.
      destruct (lossy room _ _) as [[zs e]| | |]; auto.
      destruct IH as (r2 & tr2 & A & B & C & D). exists r2, tr2. split; [auto|]. split; [congruence|]. split; [congruence|exact D].
    + unfold shrink_to, ops. rewrite (r_len (E := E) _ _ _ I). cbn [bind]. now rewrite (proj2 (Nat.leb_gt _ _)).
  - unfold ops. rewrite (r_len (E := E) _ _ _ I). cbn [bind]. exact (IH _ pre r xs tr I).
  - unfold ops. rewrite (r_cap (E := E) _ _ _ I). cbn [bind].
    replace (vcap (rbuf r) - length (pre ++ xs)) with (room - length xs) by (rewrite app_length; unfold room; lia).
    exact (IH _ pre r xs tr I).
  - unfold ops. rewrite (r_slice (E := E) _ _ _ I). cbn [bind]. exact (IH _ pre r xs tr I).
  - destruct (r_edit (E := E) pre r xs f I) as (r' & F & I' & TA & VC). unfold ops. rewrite F. cbn [bind].
    specialize (IH pre r' _ (tr ++ [Edited (f xs)]) I'). cbv zeta in IH. rewrite VC in IH. fold room in IH.
    destruct (lossy room _ _) as [[zs e]| | |]; auto.
    destruct IH as (r2 & tr2 & A & B & C & D). exists r2, tr2. split; [auto|]. split; [congruence|]. split; [congruence|exact D].
  - exists r, tr. auto.
  - exists r, tr. auto.
Qed.

Theorem C49_program_partial {T E G} grow (v : vec T) held n (r : request T) (p : wprog T E G) tr :
  holds v held -> request_writer grow v n = Ret r ->
  match lossy (vcap (rbuf r) - roffset r) p [] with
  | Ret (ys, e) => exists r' tr', as_slice (request_writer_ops T E) r' = Ret ys /\
      run_writer (request_writer_ops T E) p r tr = ends_as (request_writer_ops T E) r' e tr'
  | Panic => run_writer (request_writer_ops T E) p r tr = Panic
  | UB => run_writer (request_writer_ops T E) p r tr = UB
  | OutOfFuel => False
  end.
Proof.
  intros H Q. destruct (request_ok (T := T) grow v held n H) as (r0 & R0 & CASE).
  rewrite Q in R0. injection R0 as <-.
  assert (X : exists pre, rinv pre r [] /\ roffset r = length pre).
  { destruct CASE as [(_ & I & _)|(_ & I & _)]; eexists; split; try exact I; apply I. }
  destruct X as (pre & I & ->). pose proof (lossy_ok p pre r [] tr I) as L. cbv zeta in L.
  destruct (lossy _ p []) as [[ys e]| | |]; auto. destruct L as (r' & tr' & I' & _ & _ & D).
  exists r', tr'. split; [|exact D]. exact (r_slice (E := E) _ _ _ I').
Qed.

(** ** Cases *)
(** A program that fills, shrinks, pushes until refused and cancels. *)
Definition busy : wprog nat unit nat :=
  WFill [1; 2; 3; 4; 5] (fun n => WShrink 1 (WPush 9 (fun _ => WCapacity (fun c => WSlice (fun l =>
    if length l <? c then WPush 8 (fun ok => if ok then WAdvance 0 else WCancel tt 1) else WCancel tt 2))))).
Example C81_case : ideal 3 busy [] = Some ([1; 9; 8], Advances 0) /\
  ideal 3 (WShrink 2 busy) [7] = None /\
  holds_behind (Request vec_new (Vec [Some 5; Some 6; None; None] 2) 1) (Vec [Some 6; None; None] 1).
Proof. repeat split. exists [5]. auto. Qed.
Example C49_program_case :
  lossy 4 busy [] = Ret ([1; 9], Cancels tt 2) /\ lossy 3 (WPush 1 (fun _ => WPush 2 (fun _ => WFill [] (fun _ => busy)))) [] = Panic
  /\ lossy 1 (WPush 1 (fun _ => WPush 2 (fun _ => busy))) [] = UB.
Proof. repeat split. Qed.

(** Storing over what was written: too many items are cut, too few leave the rest, the length stays. *)
Example C81_case_edit :
  ideal 3 (WPush 1 (fun _ => WPush 2 (fun _ => WEdit (map (fun x => x * 10)) (WEdit (fun _ => [7]) (WPush 3 (fun _ =>
    WEdit (fun l => [9] ++ tl l ++ [5; 6]) (WAdvance (E := unit) 0))))))) [] = Some ([9; 20; 3], Advances 0).
Proof. reflexivity. Qed.

Print Assumptions C81_as_slice.
Print Assumptions C81_as_mut_slice.
Print Assumptions C81_push_item.
Print Assumptions C81_spare_capacity.
Print Assumptions C81_shrink_to.
Print Assumptions C81_program.
Print Assumptions C81_validator.
Print Assumptions C81_request_repaired.
Print Assumptions C49_program_partial.
