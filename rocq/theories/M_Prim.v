(** * M_Prim: the primitive parsers, crates/parcom-parsers/src/primitive/*.rs.
    Model only; no proofs. *)
From Verif Require Export M_Base M_Seq.

Set Implicit Arguments.

(** crates/parcom-parsers/src/primitive/any.rs: [any_item] *)
Section AnyItem.
  Context {S T : Type} {SQ : Sequence S (list T)}.

  (** The [while let] loop of any.rs:72-83. *)
  Fixpoint any_item_loop (segs : list (list T)) (input : S) : comp (res S T (Miss unit)) :=
    match segs with
    | segment :: segs' =>
        match segment with
        | [] => any_item_loop segs' input
        | item :: _ => r <- advance input 1 ;; done item r
        end
    | [] => fail (MkMiss tt) input
    end.

  (** any.rs:68-85; [parse_once] (any.rs:57-66) calls [parse]. *)
  Definition any_item_parse : pfun S T (Miss unit) :=
    fun input => any_item_loop (segments input) input.
  Definition any_item : dparser S T (Miss unit) :=
    DP any_item_parse (fun input => any_item_parse input).
End AnyItem.

(** crates/parcom-parsers/src/primitive/any.rs: [any_char] *)
Section AnyChar.
  Context {S : Type} {SQ : Sequence S str}.

  (** The [while let] loop of any.rs:31-41; [BytesDelta::from_char] is
      [char::len_utf8] (crates/parcom-core/src/primitive.rs:50-52). *)
  Fixpoint any_char_loop (segs : list str) (input : S) : comp (res S char (Miss unit)) :=
    match segs with
    | segment :: segs' =>
        match chars segment with
        | [] => any_char_loop segs' input
        | c :: _ => r <- advance input (len_utf8 c) ;; done c r
        end
    | [] => fail (MkMiss tt) input
    end.

  (** any.rs:28-43; [parse_once] (any.rs:19-26) calls [parse]. *)
  Definition any_char_parse : pfun S char (Miss unit) :=
    fun input => any_char_loop (segments input) input.
  Definition any_char : dparser S char (Miss unit) :=
    DP any_char_parse (fun input => any_char_parse input).
End AnyChar.

(** crates/parcom-parsers/src/primitive/the.rs: [the_item] *)
Section TheItem.
  Context {S T : Type} {SQ : Sequence S (list T)} (eqb : T -> T -> bool).

  (** The [while let] loop of the.rs:65-79. *)
  Fixpoint the_item_loop (x : T) (segs : list (list T)) (input : S)
    : comp (res S unit (Miss unit)) :=
    match segs with
    | segment :: segs' =>
        match segment with
        | [] => the_item_loop x segs' input
        | item :: _ =>
            if eqb item x then r <- advance input 1 ;; done tt r
            else fail (MkMiss tt) input
        end
    | [] => fail (MkMiss tt) input
    end.

  (** the.rs:61-81; [parse_once] (the.rs:50-59) calls [parse]. *)
  Definition the_item_parse (x : T) : pfun S unit (Miss unit) :=
    fun input => the_item_loop x (segments input) input.
  Definition the_item (x : T) : dparser S unit (Miss unit) :=
    DP (the_item_parse x) (fun input => the_item_parse x input).
End TheItem.

(** crates/parcom-parsers/src/primitive/the.rs: [the_char] *)
Section TheChar.
  Context {S : Type} {SQ : Sequence S str}.

  (** The [while let] loop of the.rs:24-38. *)
  Fixpoint the_char_loop (c0 : char) (segs : list str) (input : S)
    : comp (res S unit (Miss unit)) :=
    match segs with
    | segment :: segs' =>
        match chars segment with
        | [] => the_char_loop c0 segs' input
        | c :: _ =>
            if N.eqb c c0 then r <- advance input (len_utf8 c0) ;; done tt r
            else fail (MkMiss tt) input
        end
    | [] => fail (MkMiss tt) input
    end.

  (** the.rs:20-40; [parse_once] (the.rs:11-18) calls [parse]. *)
  Definition the_char_parse (c : char) : pfun S unit (Miss unit) :=
    fun input => the_char_loop c (segments input) input.
  Definition the_char (c : char) : dparser S unit (Miss unit) :=
    DP (the_char_parse c) (fun input => the_char_parse c input).
End TheChar.

(** crates/parcom-parsers/src/primitive/atom.rs *)
Section Atom.
  Context {S X : Type} {SG : Segment X} {SQ : Sequence S X}.

  (** The [while let] loop of atom.rs:40-63. *)
  Fixpoint atom_loop (remain : X) (segs : list X) (input : S)
    : comp (res S unit (Miss unit)) :=
    match segs with
    | segment :: segs' =>
        if seg_len remain <=? seg_len segment then
          '(s, _) <- seg_split_at segment (seg_len remain) ;;
          if seg_eqb s remain
          then r <- advance input (seg_len remain) ;; done tt r
          else fail (MkMiss tt) input
        else
          '(p, r) <- seg_split_at remain (seg_len segment) ;;
          if negb (seg_eqb segment p) then fail (MkMiss tt) input
          else atom_loop r segs' input
    | [] => fail (MkMiss tt) input
    end.

  (** atom.rs:36-64; [parse_once] (atom.rs:26-28) calls [parse]. *)
  Definition atom_parse (pattern : X) : pfun S unit (Miss unit) :=
    fun input => atom_loop pattern (segments input) input.
  Definition atom (pattern : X) : dparser S unit (Miss unit) :=
    DP (atom_parse pattern) (fun input => atom_parse pattern input).
End Atom.
