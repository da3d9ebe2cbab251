(** Line maps and bump blocks: src/eval/memory/bump.rs.

    Offsets, sizes and line numbers are natural numbers; a block is 32768 bytes in
    256 lines of 128 bytes (lines 38-48).  A line map is its membership function.
    The diagnostics ([Debug], poison verification, statistics in floating point) are
    not modelled; the debug build's fill of a newly entered hole is. *)
From Coq Require Import NArith List Bool.
Import ListNotations.
Local Open Scope N_scope.

Definition BLOCK : N := 32768.
Definition LINE : N := 128.

(** [LineMap], lines 53-79. *)
Definition linemap := N -> bool.
Definition empty_map : linemap := fun _ => false.
Definition mark_bit (m : linemap) (l : N) : linemap := fun x => (x =? l) || m x.

(** The exit test shared by the loop and the code after it, lines 101-121 and
    129-148: [upper.filter(count > 1)], then one line is left off the top. *)
Definition close_hole (count : N) (upper : option N) (lower : N) : option (N * N) :=
  match upper with
  | Some hole_upper =>
      if 1 <? count then
        let conservative_upper := if lower + 1 <? hole_upper then hole_upper - 1 else hole_upper in
        if lower <? conservative_upper then Some (lower * LINE, conservative_upper * LINE) else None
      else None
  | None => None
  end.

(** The loop of [find_hole], lines 93-126; [n] is the number of lines still to be
    looked at. *)
Fixpoint hole_scan (m : linemap) (n : nat) (count : N) (upper : option N) (lower : N) : option (N * N) :=
  match n with
  | O => close_hole count upper lower
  | S n' =>
      let line := N.of_nat n' in
      if m line then
        match close_hole count upper lower with
        | Some r => Some r
        | None => hole_scan m n' 0 None lower
        end
      else
        let count := count + 1 in
        hole_scan m n' count (match upper with None => Some (line + count) | Some u => Some u end) line
  end.

(** [LineMap::find_hole], lines 87-151. *)
Definition find_hole (m : linemap) (below_offset : N) : option (N * N) :=
  hole_scan m (N.to_nat (below_offset / LINE)) 0 None below_offset.

(** [BumpBlock], lines 187-196; the base address names the block. *)
Record bblock := mkBlock { base : N; lower : N; cursor : N; lines : linemap }.

(** [BumpBlock::new], lines 276-283. *)
Definition block_new (b : N) : bblock := mkBlock b 0 BLOCK empty_map.

(** [bump], lines 286-323: the block afterwards, the offset handed out, and the
    regions a debug build fills (line 303). *)
Fixpoint bump_fuel (fuel : nat) (b : bblock) (size : N) : bblock * option N * list (N * N) :=
  match fuel with
  | O => (b, None, [])
  | S fuel' =>
      if cursor b <? size then (b, None, [])
      else
        let next := cursor b - size in
        if next <? lower b then
          match find_hole (lines b) (cursor b) with
          | Some (lo, cu) =>
              let '(b', r, fills) := bump_fuel fuel' (mkBlock (base b) lo cu (lines b)) size in
              (b', r, (lo, cu) :: fills)
          | None => (b, None, [])
          end
        else (mkBlock (base b) (lower b) next (lines b), Some next, [])
  end.
(** Each recursive call has a cursor at least one line lower. *)
Definition bump (b : bblock) (size : N) : bblock * option N * list (N * N) :=
  bump_fuel (S (N.to_nat (cursor b / LINE))) b size.

(** [recycle], lines 361-382. *)
Definition recycle (b : bblock) : bblock * bool :=
  match find_hole (lines b) BLOCK with
  | Some (lo, cu) => (mkBlock (base b) lo cu (lines b), true)
  | None => (mkBlock (base b) 0 0 (lines b), false)
  end.

(** [current_hole_size], lines 385-387. *)
Definition current_hole_size (b : bblock) : N := cursor b - lower b.
(** [reset_region_marks], lines 390-392. *)
Definition reset_marks (b : bblock) : bblock := mkBlock (base b) (lower b) (cursor b) empty_map.

(** The marking loop of [mark_region], lines 441-443. *)
Fixpoint mark_lines (m : linemap) (first : N) (count : nat) : linemap :=
  match count with
  | O => m
  | S count' => mark_lines (mark_bit m first) (first + 1) count'
  end.
(** [mark_region], lines 406-445, for an offset inside the block. *)
Definition mark_region (b : bblock) (offset bytes : N) : bblock :=
  if offset <? BLOCK then
    let first_line := offset / LINE in
    let last_byte := offset + (bytes - 1) in
    let last_line := last_byte / LINE + 1 in
    mkBlock (base b) (lower b) (cursor b)
            (mark_lines (lines b) first_line (N.to_nat (last_line - first_line)))
  else b.

(** [find_largest_hole], lines 484-508, and [total_available_space], 511-523. *)
Fixpoint holes_fuel (fuel : nat) (m : linemap) (offset : N) : list (N * N) :=
  match fuel with
  | O => []
  | S fuel' =>
      match find_hole m offset with
      | Some (lo, up) => (lo, up) :: (if 0 <? lo then holes_fuel fuel' m lo else [])
      | None => []
      end
  end.
Definition holes (b : bblock) : list (N * N) := holes_fuel 257 (lines b) BLOCK.
Definition find_largest_hole (b : bblock) : option (N * N) :=
  fold_left (fun acc h =>
    let '(lo, up) := h in
    let size := up - lo in
    match acc with
    | Some (_, existing) => if existing <? size then Some (lo, size) else acc
    | None => Some (lo, size)
    end) (holes b) None.
Definition total_available_space (b : bblock) : N :=
  fold_left (fun acc h => acc + (snd h - fst h)) (holes b) 0.

(** [LineMap::stats], lines 154-172. *)
Fixpoint stats_scan (m : linemap) (i : N) (n : nat) (last : bool) : N * N * N :=
  match n with
  | O => (0, 0, 0)
  | S n' =>
      let current := m i in
      let '(holes, free, marked) := stats_scan m (i + 1) n' current in
      (holes + (if last && negb current then 1 else 0),
       free + (if current then 0 else 1),
       marked + (if current then 1 else 0))
  end.
Definition stats (m : linemap) : N * N * N := stats_scan m 0 256 true.

(** [analyze_density], lines 457-469: the quotients 0.25 and 0.75 of 256 lines are
    exact in floating point. *)
Inductive density := DEmpty | DSparse | DFragmented | DDense.
Definition analyze_density (b : bblock) : density :=
  let '(_, _, marked) := stats (lines b) in
  if marked =? 0 then DEmpty
  else if marked * 4 <=? 256 then DSparse
  else if marked * 4 <=? 768 then DFragmented
  else DDense.
