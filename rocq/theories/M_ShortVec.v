(** * M_ShortVec: crates/parcom-internals/src/shortvec.rs.
    Model only; no proofs.  Memory is a list of heap blocks of cells that may be
    uninitialised, plus a log of allocations, frees and value drops.  Accesses
    out of range, to freed blocks or of uninitialised cells, reading the wrong
    union field, a zero-sized allocation and a free with another size are [UB].
    Simplifications: the allocator never runs out of memory
    ([handle_alloc_error] would abort); dropping a value does not panic;
    alignment is not modelled ([Layout::array] fails when the bytes exceed
    [isize::MAX]). *)
From Verif Require Export M_Base.

Set Implicit Arguments.

(** Memory events. *)
Inductive event (T : Type) :=
| EAlloc (id size : nat)
| EFree (id size : nat)
| EDrop (v : T).
Arguments EAlloc {T} _ _.
Arguments EFree {T} _ _.

Record block (T : Type) := Block { b_cells : list (option T); b_size : nat; b_live : bool }.
Record mem (T : Type) := Mem { blocks : list (block T); log : list (event T) }.
Arguments Block {T} _ _ _.
Arguments Mem {T} _ _.

Definition mem_empty {T} : mem T := Mem [] [].

Section Memory.
  Context {T : Type}.

  (** [std::alloc::alloc]: undefined for a zero size. *)
  Definition alloc (m : mem T) (size cells : nat) : comp (nat * mem T) :=
    if size =? 0 then UB
    else let id := length (blocks m) in
         Ret (id, Mem (blocks m ++ [Block (repeat None cells) size true])
                      (log m ++ [EAlloc id size])).

  Definition live_block (m : mem T) (id : nat) : comp (block T) :=
    match nth_error (blocks m) id with
    | Some b => if b_live b then Ret b else UB
    | None => UB
    end.

  (** [std::alloc::dealloc] *)
  Definition dealloc (m : mem T) (id size : nat) : comp (mem T) :=
    b <- live_block m id ;;
    if b_size b =? size
    then Ret (Mem (list_set (blocks m) id (Block (b_cells b) (b_size b) false))
                  (log m ++ [EFree id size]))
    else UB.

  (** [std::alloc::realloc]: a new block with the old contents. *)
  Definition realloc (m : mem T) (id old_size new_size cells : nat) : comp (nat * mem T) :=
    b <- live_block m id ;;
    if new_size =? 0 then UB
    else
      m <- dealloc m id old_size ;;
      let id' := length (blocks m) in
      let kept := firstn cells (b_cells b) in
      Ret (id', Mem (blocks m ++ [Block (kept ++ repeat None (cells - length kept)) new_size true])
                    (log m ++ [EAlloc id' new_size])).
End Memory.

(** shortvec.rs:18-21; which field of the union was written last. *)
Inductive ShortVecData (T : Type) :=
| DStack (cells : list (option T))
| DHeap (id : nat).
Arguments DStack {T} _.
Arguments DHeap {T} _.

(** shortvec.rs:8-16 *)
Record ShortVec (T : Type) := MkShortVec { cap : nat; len : nat; data : ShortVecData T }.

Inductive ptr := PStack | PHeap (id : nat).

Section ShortVec.
  Context {T : Type}.
  Variable N : nat.          (* inline size *)
  Variable size_of : nat.    (* size_of::<T>() *)
  Variable isize_max : nat.

  (** [Layout::array::<T>(n).unwrap()], as its size. *)
  Definition layout_array (n : nat) : comp nat :=
    if n * size_of <=? isize_max then Ret (n * size_of) else Panic.

  (** [assert!(cap <= isize::MAX)] *)
  Definition assert_cap (n : nat) : comp unit :=
    if n <=? isize_max then Ret tt else Panic.

  (** shortvec.rs:28-57 *)
  Definition with_capacity (m : mem T) (capacity : nat) : comp (ShortVec T * mem T) :=
    _ <- assert_cap capacity ;;
    if N <? capacity then
      layout <- layout_array capacity ;;
      ' p <- alloc m layout capacity ;;
      Ret (MkShortVec capacity 0 (DHeap (fst p)), snd p)
    else Ret (MkShortVec N 0 (DStack (repeat None N)), m).

  (** shortvec.rs:24-26 *)
  Definition new (m : mem T) : comp (ShortVec T * mem T) := with_capacity m 0.

  (** shortvec.rs:162-164 *)
  Definition is_heap (self : ShortVec T) : bool := N <? cap self.

  (** shortvec.rs:166-168.  The address of the union: only meaningful while it
      holds the stack array. *)
  Definition as_ptr_stack_unchecked (self : ShortVec T) : comp ptr :=
    match data self with DStack _ => Ret PStack | DHeap _ => UB end.
  (** shortvec.rs:170-172 *)
  Definition as_ptr_heap_unchecked (self : ShortVec T) : comp ptr :=
    match data self with DHeap id => Ret (PHeap id) | DStack _ => UB end.
  (** shortvec.rs:59-65 *)
  Definition as_ptr (self : ShortVec T) : comp ptr :=
    if is_heap self then as_ptr_heap_unchecked self else as_ptr_stack_unchecked self.

  (** The cells behind a pointer. *)
  Definition cells_of (m : mem T) (self : ShortVec T) (p : ptr) : comp (list (option T)) :=
    match p with
    | PStack => match data self with DStack cells => Ret cells | DHeap _ => UB end
    | PHeap id => b <- live_block m id ;; Ret (b_cells b)
    end.

  (** [ptr.add(i).read()] *)
  Definition ptr_read (m : mem T) (self : ShortVec T) (p : ptr) (i : nat) : comp T :=
    cells <- cells_of m self p ;;
    match nth_error cells i with Some (Some v) => Ret v | _ => UB end.

  (** [ptr.add(i).write(v)] *)
  Definition ptr_write (m : mem T) (self : ShortVec T) (p : ptr) (i : nat) (v : T)
    : comp (ShortVec T * mem T) :=
    cells <- cells_of m self p ;;
    if length cells <=? i then UB
    else
      let cells' := list_set cells i (Some v) in
      match p with
      | PStack => Ret (MkShortVec (cap self) (len self) (DStack cells'), m)
      | PHeap id =>
          b <- live_block m id ;;
          Ret (self, Mem (list_set (blocks m) id (Block cells' (b_size b) true)) (log m))
      end.

  (** All of the first [n] cells, which must be initialised. *)
  Fixpoint read_cells (cells : list (option T)) (n : nat) : comp (list T) :=
    match n, cells with
    | 0, _ => Ret []
    | Datatypes.S n', Some v :: cells' => vs <- read_cells cells' n' ;; Ret (v :: vs)
    | _, _ => UB
    end.

  (** shortvec.rs:67-73 (and 75-81): [[..self.len]] on the stack array panics
      when out of range. *)
  Definition as_slice (m : mem T) (self : ShortVec T) : comp (list T) :=
    if is_heap self then
      p <- as_ptr_heap_unchecked self ;;
      cells <- cells_of m self p ;;
      read_cells cells (len self)
    else
      p <- as_ptr_stack_unchecked self ;;
      cells <- cells_of m self p ;;
      if len self <=? length cells then read_cells cells (len self) else Panic.

  (** [as_slice_mut()[i] = v]: shortvec.rs:75-81, then a bounds-checked
      assignment, which drops the old value. *)
  Definition assign (m : mem T) (self : ShortVec T) (i : nat) (v : T) : comp (ShortVec T * mem T) :=
    vs <- as_slice m self ;;
    match nth_error vs i with
    | None => Panic
    | Some old =>
        p <- as_ptr self ;;
        ' r <- ptr_write m self p i v ;;
        Ret (fst r, Mem (blocks (snd r)) (log (snd r) ++ [EDrop old]))
    end.

  (** shortvec.rs:83-85 *)
  Definition is_empty (self : ShortVec T) : bool := len self =? 0.

  (** shortvec.rs:116-158 *)
  Definition reserve_exact (m : mem T) (self : ShortVec T) (capacity : nat)
    : comp (ShortVec T * mem T) :=
    _ <- assert_cap capacity ;;
    if capacity <=? cap self then Ret (self, m)
    else
      layout <- layout_array capacity ;;
      if is_heap self then
        old_layout <- layout_array (cap self) ;;
        p <- as_ptr_heap_unchecked self ;;
        match p with
        | PStack => UB
        | PHeap id =>
            ' r <- realloc m id old_layout layout capacity ;;
            Ret (MkShortVec capacity (len self) (DHeap (fst r)), snd r)
        end
      else
        ' r <- alloc m layout capacity ;;
        p <- as_ptr_stack_unchecked self ;;
        (* copy_nonoverlapping(src, buf, self.len) *)
        src <- cells_of (snd r) self p ;;
        b <- live_block (snd r) (fst r) ;;
        if (len self <=? length src) && (len self <=? length (b_cells b)) then
          let cells' := firstn (len self) src ++ skipn (len self) (b_cells b) in
          Ret (MkShortVec capacity (len self) (DHeap (fst r)),
               Mem (list_set (blocks (snd r)) (fst r) (Block cells' (b_size b) true)) (log (snd r)))
        else UB.

  (** shortvec.rs:108-114 *)
  Definition reserve (m : mem T) (self : ShortVec T) (capacity : nat) : comp (ShortVec T * mem T) :=
    if capacity <=? cap self then Ret (self, m)
    else reserve_exact m self (Nat.max (cap self * 2) capacity).

  (** shortvec.rs:87-95 *)
  Definition push (m : mem T) (self : ShortVec T) (item : T) : comp (ShortVec T * mem T) :=
    let l := len self in
    ' r <- reserve m self (l + 1) ;;
    p <- as_ptr (fst r) ;;
    ' r <- ptr_write (snd r) (fst r) p l item ;;
    Ret (MkShortVec (cap (fst r)) (l + 1) (data (fst r)), snd r).

  (** shortvec.rs:97-106 *)
  Definition pop (m : mem T) (self : ShortVec T) : comp (option T * ShortVec T) :=
    if is_empty self then Ret (None, self)
    else
      p <- as_ptr self ;;
      let self' := MkShortVec (cap self) (len self - 1) (data self) in
      v <- ptr_read m self' p (len self') ;;
      Ret (Some v, self').

  (** shortvec.rs:176-189 *)
  Definition drop (m : mem T) (self : ShortVec T) : comp (mem T) :=
    p <- as_ptr self ;;
    cells <- cells_of m self p ;;
    vs <- read_cells cells (len self) ;;
    let m := Mem (blocks m) (log m ++ map (fun v => EDrop v) vs) in
    if is_heap self then
      layout <- layout_array (cap self) ;;
      match p with
      | PHeap id => dealloc m id layout
      | PStack => UB
      end
    else Ret m.

  (** A client: a sequence of method calls and what each returns. *)
  Inductive call := CPush (v : T) | CPop | CReserve (n : nat) | CReserveExact (n : nat)
                  | CAsSlice | CIsEmpty | CAssign (i : nat) (v : T).
  Inductive reply := RUnit | RPop (v : option T) | RSlice (vs : list T) | RBool (b : bool).

  Definition perform (st : ShortVec T * mem T) (c : call) : comp (reply * (ShortVec T * mem T)) :=
    let '(self, m) := st in
    match c with
    | CPush v => ' r <- push m self v ;; Ret (RUnit, r)
    | CPop => ' r <- pop m self ;; Ret (RPop (fst r), (snd r, m))
    | CReserve n => ' r <- reserve m self n ;; Ret (RUnit, r)
    | CReserveExact n => ' r <- reserve_exact m self n ;; Ret (RUnit, r)
    | CAsSlice => vs <- as_slice m self ;; Ret (RSlice vs, st)
    | CIsEmpty => Ret (RBool (is_empty self), st)
    | CAssign i v => ' r <- assign m self i v ;; Ret (RUnit, r)
    end.

  Fixpoint perform_all (st : ShortVec T * mem T) (cs : list call)
    : comp (list reply * (ShortVec T * mem T)) :=
    match cs with
    | [] => Ret ([], st)
    | c :: cs' =>
        ' r <- perform st c ;;
        ' rs <- perform_all (snd r) cs' ;;
        Ret (fst r :: fst rs, snd rs)
    end.
End ShortVec.
Arguments call T : clear implicits.
Arguments reply T : clear implicits.
Arguments CPop {T}.
Arguments CReserve {T} _.
Arguments CReserveExact {T} _.
Arguments CAsSlice {T}.
Arguments CIsEmpty {T}.
Arguments RUnit {T}.
Arguments RBool {T} _.
