(** Model of tooling/minimize/src/chunks.rs (which bytes of a union carry data) and of cells_in_sized_ty in
    tooling/minimize/src/ty.rs (which bytes of a type are inside an UnsafeCell).

    Simplification: offsets, sizes and counts are unbounded numbers; [try_to_usize().unwrap()] is left out, and so
    is the allocation of the marker vector, so a union larger than the host's memory is handled here while the
    tool would crash. *)
From Verif Require Export Repr.

(** chunks.rs:87-92 mark_size: indexing outside the slice panics *)
Definition mark_size (size : Size) (markers : list bool) : Outcome (list bool) :=
  fold_m (fun ms i => if (i <? length ms)%nat then Ret (<[i := true]> ms) else Panic)
    (seq 0 (N.to_nat size)) markers.

(** [&mut markers[offset..]], used in chunks.rs:11, 53, 59, 68, 76, 99: run [f] on the rest of the slice *)
Definition mark_at (offset : Offset) (f : list bool -> Outcome (list bool)) (markers : list bool) : Outcome (list bool) :=
  if (N.to_nat offset <=? length markers)%nat then
    let! r := f (drop (N.to_nat offset) markers) in
    Ret (take (N.to_nat offset) markers ++ r)
  else Panic.

(** chunks.rs:94-107 mark_discriminator *)
Fixpoint mark_discriminator (d : Discriminator) (markers : list bool) : Outcome (list bool) :=
  match d with
  | DInvalid | DKnown _ => Ret markers
  | DBranch offset value_type fallback children =>
      let! ms := mark_at offset (mark_size (it_size value_type)) markers in
      let! ms := mark_discriminator fallback ms in
      fold_m (fun ms c => mark_discriminator (snd c) ms) children ms
  end.

Section Mark.
  (** the tool uses DefaultTarget, the x86_64 target *)
  Variable T : Target.

  (** chunks.rs:44-84 mark_used_bytes *)
  Fixpoint mark_used_bytes (ty : Ty) (markers : list bool) : Outcome (list bool) :=
    match ty with
    | TInt it => mark_size (it_size it) markers
    | TBool => mark_size 1 markers
    | TPtr _ => mark_size (PTR_SIZE T) markers
    | TTuple fields _ unsized =>
        match unsized with
        | Some _ => Panic
        | None => fold_m (fun ms f => mark_at (fst f) (mark_used_bytes (snd f)) ms) fields markers
        end
    | TUnion _ chunks _ _ => fold_m (fun ms c => mark_at (fst c) (mark_size (snd c)) ms) chunks markers
    | TArray elem count =>
        fold_m (fun ms i =>
            let! s := size_of T elem in
            mark_at (i * s) (mark_used_bytes elem) ms) (indices count) markers
    | TEnum variants _ discr _ _ =>
        let! ms := fold_m (fun ms v =>
            let! ms := mark_used_bytes (fst (snd v)) ms in
            fold_m (fun ms t => mark_at (fst t) (mark_size (it_size (fst (snd t)))) ms) (snd (snd v)) ms)
          variants markers in
        mark_discriminator discr ms
    | TSlice _ | TTraitObject _ => Panic
    end.

  (** chunks.rs:21-34 the loop over the markers. [i] is the index of the first marker, [start] is
      current_chunk_start. *)
  Fixpoint chunks_from (i : nat) (start : option nat) (markers : list bool) : list (Offset * Size) :=
    match markers with
    | [] => []
    | b :: r =>
        match b, start with
        | true, None => chunks_from (S i) (Some i) r
        | false, Some s => (N.of_nat s, N.of_nat (i - s)) :: chunks_from (S i) None r
        | _, _ => chunks_from (S i) start r
        end
    end.

  (** chunks.rs:14-36 the second half of calc_chunks, with the false marker pushed at the end *)
  Definition chunks_of (markers : list bool) : list (Offset * Size) := chunks_from 0 None (markers ++ [false]).

  (** chunks.rs:6-37 calc_chunks *)
  Definition calc_chunks (fields : list (Offset * Ty)) (size : Size) : Outcome (list (Offset * Size)) :=
    let! ms := fold_m (fun ms f => mark_at (fst f) (mark_used_bytes (snd f)) ms) fields
                 (repeat false (N.to_nat size)) in
    Ret (chunks_of ms).

  (** ty.rs:213-217 the union type that minimize builds *)
  Definition union_ty (fields : list (Offset * Ty)) (size : Size) (align : Align) : Outcome Ty :=
    let! chunks := calc_chunks fields size in
    Ret (TUnion fields chunks size align).
End Mark.

(** What ty.rs:99-158 asks rustc about a sized type: scalars, pointers, function definitions, `!` and boxes
    (ty.rs:101-110) have no cells; tuples, structs and closures (111-114, 120-123, 132-135) have a layout with
    field offsets; UnsafeCell (115-119) has a size; unions and enums (124-131) are freeze or not, as rustc says,
    and have a size; arrays (136-155) have an element type and a count. The sizes are rustc's. *)
Inductive RsTy :=
| RsPlain (size : Size)
| RsFields (fields : list (Offset * RsTy)) (size : Size)
| RsUnsafeCell (size : Size)
| RsUnionOrEnum (is_freeze : bool) (size : Size)
| RsArray (elem : RsTy) (count : N) (size : Size).

(** rs_layout_of(ty).size *)
Definition rs_size (ty : RsTy) : Size :=
  match ty with
  | RsPlain s | RsFields _ s | RsUnsafeCell s | RsUnionOrEnum _ s | RsArray _ _ s => s
  end.

(** [(start + offset, len)] in ty.rs:94 and 149 *)
Definition shift_cells (offset : Offset) (cells : list (Offset * Size)) : list (Offset * Size) :=
  List.map (fun c => (fst c + offset, snd c)%N) cells.

(** ty.rs:83-97 cells_from_layout and 99-158 cells_in_sized_ty. The array case enumerates [vec![0, count]],
    a vector of two elements, so the offsets are those of the elements 0 and 1. *)
Fixpoint cells_in_sized_ty (ty : RsTy) : list (Offset * Size) :=
  match ty with
  | RsPlain _ => []
  | RsFields fields _ => concat (List.map (fun f => shift_cells (fst f) (cells_in_sized_ty (snd f))) fields)
  | RsUnsafeCell size => [(0%N, size)]
  | RsUnionOrEnum is_freeze size => if is_freeze then [] else [(0%N, size)]
  | RsArray elem count _ =>
      let range := cells_in_sized_ty elem in
      match range with
      | [] => []
      | _ =>
          let size := rs_size elem in
          let ranges := [0%N; count] in
          concat (List.map (fun i => shift_cells (size * N.of_nat i) range) (seq 0 (length ranges)))
      end
  end.
