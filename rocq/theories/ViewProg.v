(** The members of the views as programs of single accesses (Prog.v). Each definition follows the sequential model of
    the same function, cited there; here a pointer is an index into the buffer [bd], and the buffers are not passed along
    but read and written in the shared memory. Placing, assigning, moving and destroying read the cell first, since
    whether there is an object decides if the access is defined (Mem.v). *)
From Coq Require Import List Arith ZArith Lia Bool.
From Verif Require Import Base Mem AoA Sorted Prog.
Import ListNotations.
Set Implicit Arguments.

Section Cells.
Variables V W : Type.
Variable chk : bool.
Notation prog := (prog V W).
Notation ty := (ty V W).

Fixpoint p_up (n : nat) (f : nat -> prog unit) (i : nat) : prog unit :=
  match n with O => Ret tt | S n' => _ <~ f i ;; p_up n' f (i + 1) end.
Fixpoint p_down (n : nat) (f : nat -> prog unit) : prog unit :=
  match n with O => Ret tt | S n' => _ <~ f n' ;; p_down n' f end.
Definition p_sub (a b : nat) : prog nat := lift V W (sub_ix a b).
Definition p_check (c : bool) : prog unit := lift V W (check_if chk c).
Definition p_error (c : bool) : prog unit := lift V W (error_if c).

Section Buf.
(** The buffer and whether its elements are trivial *)
Variable bd : bid.
Variable triv : bool.
Notation A := (ty bd).
Definition p_get (i : nat) : prog (cell A) := Get bd i (fun c => Ret c).
Definition p_put (i : nat) (c : cell A) : prog unit := Put bd i c (Ret tt).

(** Mem.v *)
Definition p_rd (i : nat) : prog A := c <~ p_get i ;; match c with Obj v => Ret v | _ => Stop (Some FRead) end.
Definition p_place (i : nat) (c : cell A) : prog unit :=
  old <~ p_get i ;; match old with Obj _ => if triv then p_put i c else Stop (Some FOver) | _ => p_put i c end.
Definition p_take (i : nat) : prog (cell A) :=
  c <~ p_get i ;;
  if triv then Ret c
  else match c with
       | Raw => Stop (Some FMove)
       | Obj v => _ <~ p_put i Hollow ;; Ret (Obj v)
       | Hollow => Ret Hollow
       end.
Definition p_mconstruct (dst src : nat) : prog unit := c <~ p_take src ;; p_place dst c.
Definition p_store (i : nat) (c : cell A) : prog unit :=
  old <~ p_get i ;; match old with Raw => if triv then p_put i c else Stop (Some FAssign) | _ => p_put i c end.
Definition p_massign (dst src : nat) : prog unit := c <~ p_take src ;; p_store dst c.
Definition p_destroy1 (i : nat) : prog unit :=
  c <~ p_get i ;; if triv then Ret tt else match c with Raw => Stop (Some FDestroy) | _ => p_put i Raw end.

(** arrayManipulation.hpp, see ArrayManip.v *)
Definition p_destroy (p size : nat) : prog unit := p_up size (fun i => p_destroy1 (p + i)) 0.
Fixpoint p_uninitializedCopy (vs : list A) (p : nat) : prog unit :=
  match vs with [] => Ret tt | v :: vs' => _ <~ p_place p (Obj v) ;; p_uninitializedCopy vs' (p + 1) end.
Definition p_shiftUp (p size index n : nat) : prog unit :=
  _ <~ p_check (size <? index) ;;
  if n =? 0 then Ret tt else
  _ <~ p_down (size - index) (fun k => p_mconstruct (p + (index + k) + n) (p + (index + k))) ;;
  p_destroy (p + index) ((if index + n <? size then index + n else size) - index).
Definition p_shiftDown (p size index n : nat) : prog unit :=
  _ <~ p_check (size <? index) ;;
  if n =? 0 then Ret tt else
  p_up (size - index) (fun i => d <~ p_sub (p + i) n ;; p_massign d (p + i)) index.
Definition p_erase (p size index n : nat) : prog unit :=
  if n =? 0 then Ret tt else
  _ <~ p_check (size <=? index) ;;
  _ <~ p_check (size <=? index + n - 1) ;;
  _ <~ p_shiftDown p size (index + n) n ;;
  d <~ p_sub (p + size) n ;;
  p_destroy d n.
Fixpoint p_append_loop (p size i : nat) (vs : list A) : prog nat :=
  match vs with [] => Ret i | v :: vs' => _ <~ p_place (p + size + i) (Obj v) ;; p_append_loop p size (i + 1) vs' end.
Definition p_emplace (p size index : nat) (v : A) : prog unit :=
  _ <~ p_check (size <? index) ;;
  _ <~ p_shiftUp p size index 1 ;;
  p_place (p + index) (Obj v).
Definition p_insert (p size index : nat) (vs : list A) : prog unit :=
  _ <~ p_check (size <? index) ;;
  _ <~ p_shiftUp p size index (length vs) ;;
  p_uninitializedCopy vs (p + index).
End Buf.
End Cells.

(** sortedArrayManipulation.hpp on m_values, see Sorted.v. The callbacks of the views change neither the buffers nor
    the pointers: incrementSize is [inc], the notifications are [ev]. *)
Section SortedProg.
Variables V W : Type.
Variable chk tv : bool.
Variable lt eqb : V -> V -> bool.
Notation prog := (prog V W).
Notation prd := (p_rd V W BVals).

Fixpoint p_find_loop (fuel : nat) (p : nat) (value : V) (lower upper : nat) : prog nat :=
  if lower =? upper then Ret lower else
  match fuel with
  | O => Stop (Some FFuel)
  | S fuel' =>
      let guess := (lower + upper) / 2 in
      x <~ prd (p + guess) ;;
      if lt x value then p_find_loop fuel' p value (guess + 1) upper
      else p_find_loop fuel' p value lower guess
  end.
Definition p_find (p size : nat) (value : V) : prog nat := p_find_loop size p value 0 size.

Variable inc : nat -> prog nat.
Variable ev : event -> prog unit.

Definition p_remove (p size : nat) (value : V) : prog bool :=
  index <~ p_find p size value ;;
  if index =? size then Ret false else
  y <~ prd (p + index) ;;
  if negb (eqb y value) then Ret false else
  _ <~ p_erase V W chk BVals tv p size index 1 ;;
  _ <~ ev (ERemove index) ;;
  Ret true.
Fixpoint p_seek (p size pos : nat) (vs : list V) : prog (nat * list V) :=
  match vs with
  | [] => Ret (pos, [])
  | v :: vs' =>
      k <~ p_find (p + pos) (size - pos) v ;;
      if pos + k =? size then Ret (size, []) else
      y <~ prd (p + (pos + k)) ;;
      if eqb y v then Ret (pos + k, vs) else p_seek p size (pos + k) vs'
  end.
Fixpoint p_remove_loop (fuel : nat) (p size nRemoved pos : nat) (vs : list V) : prog nat :=
  match vs with
  | [] => Ret nRemoved
  | _ :: rest =>
      match fuel with
      | O => Stop (Some FFuel)
      | S fuel' =>
          r <~ p_seek p size pos rest ;;
          let next := snd r in
          let np := match next with [] => size | _ => fst r end in
          _ <~ p_shiftDown V W chk BVals tv p np (pos + 1) (nRemoved + 1) ;;
          _ <~ ev (ERemoveN (nRemoved + 1) pos np) ;;
          if np =? size then Ret (nRemoved + 1)
          else p_remove_loop fuel' p size (nRemoved + 1) np next
      end
  end.
Definition p_removes (p size : nat) (vs : list V) : prog nat :=
  r <~ p_seek p size 0 vs ;;
  match snd r with
  | [] => Ret 0
  | _ =>
      nRemoved <~ p_remove_loop (length vs) p size 0 (fst r) (snd r) ;;
      _ <~ p_up nRemoved (fun i => p_destroy1 V W BVals tv (p + i)) (size - nRemoved) ;;
      Ret nRemoved
  end.

Definition p_insert_pos (p size : nat) (value : V) : prog nat :=
  if size =? 0 then Ret 0 else
  x0 <~ prd (p + 0) ;;
  if lt value x0 then Ret 0 else
  xl <~ prd (p + (size - 1)) ;;
  if lt xl value then Ret size else p_find p size value.
(** Is the value at [pos]? [none] when [pos] is [bound]. *)
Definition p_test (p pos bound : nat) (none : bool) (test : V -> bool) : prog bool :=
  if pos =? bound then Ret none else y <~ prd (p + pos) ;; Ret (test y).
Definition p_set_insert (p size : nat) (value : V) : prog bool :=
  insertPos <~ p_insert_pos p size value ;;
  present <~ p_test p insertPos size false (fun y => eqb y value) ;;
  if present : bool then _ <~ inc 0 ;; Ret false
  else
    newPtr <~ inc 1 ;;
    _ <~ p_emplace V W chk BVals tv newPtr size insertPos value ;;
    _ <~ ev (EInsert insertPos) ;;
    Ret true.
Fixpoint p_set_loop (p n : nat) (vs : list V) : prog nat :=
  match vs with
  | [] => Ret n
  | v :: vs' =>
      _ <~ p_place V W BVals tv (p + n) (Obj v) ;;
      _ <~ ev (ESet n n) ;;
      p_set_loop p (n + 1) vs'
  end.
Fixpoint p_count_loop (p size ub n : nat) (rvs : list V) : prog nat :=
  match rvs with
  | [] => Ret n
  | v :: rvs' =>
      ub' <~ p_find p ub v ;;
      absent <~ p_test p ub' size true (fun y => negb (eqb y v)) ;;
      p_count_loop p size ub' (if absent : bool then n + 1 else n) rvs'
  end.
Fixpoint p_insert_loop (p ub nLeft : nat) (rvs : list V) : prog unit :=
  match rvs with
  | [] => Ret tt
  | v :: rvs' =>
      pos <~ p_find p ub v ;;
      present <~ p_test p pos ub false (fun y => eqb y v) ;;
      if present : bool then p_insert_loop p ub nLeft rvs' else
      _ <~ p_shiftUp V W chk BVals tv p ub pos nLeft ;;
      d <~ p_sub V W (p + pos + nLeft) 1 ;;
      _ <~ p_place V W BVals tv d (Obj v) ;;
      _ <~ ev (EInsertN nLeft (length rvs') pos ub) ;;
      p_insert_loop p pos (nLeft - 1) rvs'
  end.
Definition p_inserts (p size : nat) (vs : list V) : prog nat :=
  if size =? 0 then newPtr <~ inc (length vs) ;; p_set_loop newPtr 0 vs
  else
    nToInsert <~ p_count_loop p size size 0 (rev vs) ;;
    newPtr <~ inc nToInsert ;;
    if nToInsert =? 0 then Ret 0 else
    _ <~ p_insert_loop newPtr size nToInsert (rev vs) ;;
    Ret nToInsert.
End SortedProg.

(** The members of ArrayOfArraysView, see AoA.v; [n] is m_numArrays. *)
Section ViewProg.
Variables V W : Type.
Variable chk tv tw : bool.
Variable n : nat.
Notation prog := (prog V W).

Definition p_offset (i : nat) : prog nat := p_rd V W BOffs i.
Definition p_size_ (i : nat) : prog nat := p_rd V W BSizes i.
Definition p_put_size (i s : nat) : prog unit := p_store V W BSizes true i (Obj s).
Definition p_check_array (i : nat) : prog unit := p_check V W chk (n <=? i).
Definition p_sizeOfArray (i : nat) : prog nat := _ <~ p_check_array i ;; p_size_ i.
Definition p_capacityOfArray (i : nat) : prog nat :=
  _ <~ p_check_array i ;; o2 <~ p_offset (i + 1) ;; o1 <~ p_offset i ;; p_sub V W o2 o1.
Definition p_check_array2 (i j : nat) : prog unit :=
  if chk then _ <~ p_error V W (n <=? i) ;; s <~ p_size_ i ;; p_error V W (s <=? j) else Ret tt.
Definition p_check_array_insert2 (i j : nat) : prog unit :=
  if chk then _ <~ p_error V W (n <=? i) ;; s <~ p_sizeOfArray i ;; p_error V W (s <? j) else Ret tt.
Definition p_check_capacity (i increase : nat) : prog unit :=
  if chk then s <~ p_sizeOfArray i ;; c <~ p_capacityOfArray i ;; p_error V W (c <? s + increase) else Ret tt.
Definition p_slot (i j : nat) : prog nat := _ <~ p_check_array2 i j ;; o <~ p_offset i ;; Ret (o + j).
Definition p_at (i j : nat) : prog V := k <~ p_slot i j ;; p_rd V W BVals k.
Definition p_set (i j : nat) (v : V) : prog unit := k <~ p_slot i j ;; p_store V W BVals tv k (Obj v).

Definition p_v_emplaceBack (i : nat) (v : V) : prog unit :=
  _ <~ p_check_array i ;; _ <~ p_check_capacity i 1 ;;
  o <~ p_offset i ;; s <~ p_sizeOfArray i ;;
  _ <~ p_place V W BVals tv (o + s) (Obj v) ;;
  p_put_size i (s + 1).
Definition p_v_appendToArray (i : nat) (vs : list V) : prog unit :=
  _ <~ p_check_array i ;;
  o <~ p_offset i ;; s <~ p_sizeOfArray i ;;
  k <~ p_append_loop V W BVals tv o s 0 vs ;;
  _ <~ p_check_capacity i k ;;
  p_put_size i (s + k).
Definition p_v_emplace (i j : nat) (v : V) : prog unit :=
  _ <~ p_check_array_insert2 i j ;; _ <~ p_check_capacity i 1 ;;
  o <~ p_offset i ;; s <~ p_sizeOfArray i ;;
  _ <~ p_emplace V W chk BVals tv o s j v ;;
  p_put_size i (s + 1).
Definition p_v_insertIntoArray (i j : nat) (vs : list V) : prog unit :=
  _ <~ p_check_array_insert2 i j ;; _ <~ p_check_capacity i (length vs) ;;
  o <~ p_offset i ;; s <~ p_sizeOfArray i ;;
  _ <~ p_insert V W chk BVals tv o s j vs ;;
  p_put_size i (s + length vs).
Definition p_eraseFromArray (i j k : nat) : prog unit :=
  _ <~ p_check_array2 i j ;;
  o <~ p_offset i ;; s <~ p_sizeOfArray i ;;
  _ <~ p_erase V W chk BVals tv o s j k ;;
  s' <~ p_sub V W s k ;;
  p_put_size i s'.

(** ArrayOfSetsView, see AoS.v *)
Variable lt eqb : V -> V -> bool.
Definition p_getSetValues (i : nat) : prog nat := _ <~ p_check_array i ;; p_offset i.
(** The part of each member after the call into sortedArrayManipulation *)
Section Impl.
Variable inc : nat -> prog nat.
Variable ev : event -> prog unit.
Definition p_insertImpl (i : nat) (v : V) : prog bool :=
  _ <~ p_check_array i ;; setSize <~ p_sizeOfArray i ;; setValues <~ p_getSetValues i ;;
  success <~ p_set_insert chk tv lt eqb inc ev setValues setSize v ;;
  s <~ p_size_ i ;;
  _ <~ p_put_size i (s + if success : bool then 1 else 0) ;;
  Ret success.
Definition p_insertsImpl (i : nat) (vs : list V) : prog nat :=
  _ <~ p_check_array i ;; setSize <~ p_sizeOfArray i ;; setValues <~ p_getSetValues i ;;
  nInserted <~ p_inserts chk tv lt eqb inc ev setValues setSize vs ;;
  s <~ p_size_ i ;;
  _ <~ p_put_size i (s + nInserted) ;;
  Ret nInserted.
Definition p_removeImpl (i : nat) (v : V) : prog bool :=
  _ <~ p_check_array i ;; setSize <~ p_sizeOfArray i ;; setValues <~ p_getSetValues i ;;
  success <~ p_remove chk tv lt eqb ev setValues setSize v ;;
  s <~ p_size_ i ;;
  s' <~ p_sub V W s (if success : bool then 1 else 0) ;;
  _ <~ p_put_size i s' ;;
  Ret success.
Definition p_removesImpl (i : nat) (vs : list V) : prog nat :=
  _ <~ p_check_array i ;; setSize <~ p_sizeOfArray i ;; setValues <~ p_getSetValues i ;;
  nRemoved <~ p_removes chk tv lt eqb ev setValues setSize vs ;;
  s <~ p_size_ i ;;
  s' <~ p_sub V W s nRemoved ;;
  _ <~ p_put_size i s' ;;
  Ret nRemoved.
End Impl.
Definition p_view_inc (i nToAdd : nat) : prog nat :=
  _ <~ (if chk then s <~ p_sizeOfArray i ;; c <~ p_capacityOfArray i ;; p_error V W (c <? s + nToAdd) else Ret tt) ;;
  p_getSetValues i.
Definition no_ev (e : event) : prog unit := Ret tt.
Definition p_v_insertIntoSet (i : nat) (v : V) : prog bool := p_insertImpl (p_view_inc i) no_ev i v.
Definition p_v_insertsIntoSet (i : nat) (vs : list V) : prog nat := p_insertsImpl (p_view_inc i) no_ev i vs.
Definition p_removeFromSet (i : nat) (v : V) : prog bool := p_removeImpl no_ev i v.
Definition p_removesFromSet (i : nat) (vs : list V) : prog nat := p_removesImpl no_ev i vs.

Definition p_contains (i : nat) (v : V) : prog bool :=
  _ <~ p_check_array i ;; setSize <~ p_sizeOfArray i ;; setValues <~ p_getSetValues i ;;
  pos <~ p_find W lt setValues setSize v ;;
  p_test W setValues pos setSize false (fun y => eqb y v).

(** CRSMatrixView, see CRS.v *)
Definition p_entry_event (rowNNZ : nat) (ws : list W) (e : nat) (x : event) : prog unit :=
  match x with
  | EInsert pos => w <~ lift V W (aget ws 0) ;; p_emplace V W chk BEnts tw e rowNNZ pos w
  | ESet pos colPos => w <~ lift V W (aget ws colPos) ;; p_place V W BEnts tw (e + pos) (Obj w)
  | EInsertN nLeft colPos pos prevPos =>
      _ <~ p_shiftUp V W chk BEnts tw e prevPos pos nLeft ;;
      w <~ lift V W (aget ws colPos) ;;
      d <~ p_sub V W (e + pos + nLeft) 1 ;;
      p_place V W BEnts tw d (Obj w)
  | ERemove pos => p_erase V W chk BEnts tw e rowNNZ pos 1
  | ERemoveN nRemoved curPos nextPos => p_shiftDown V W chk BEnts tw e nextPos (curPos + 1) nRemoved
  end.
Definition p_crs_inc (row rowNNZ rowCapacity nToAdd : nat) : prog nat :=
  _ <~ p_check V W chk (rowCapacity <? rowNNZ + nToAdd) ;; p_getSetValues row.
Definition p_crs_insertNonZero (row : nat) (col : V) (w : W) : prog bool :=
  nnz <~ p_sizeOfArray row ;; c <~ p_capacityOfArray row ;; e <~ p_getSetValues row ;;
  p_insertImpl (p_crs_inc row nnz c) (p_entry_event nnz [w] e) row col.
Definition p_crs_insertNonZeros (row : nat) (cols : list V) (ws : list W) : prog nat :=
  nnz <~ p_sizeOfArray row ;; c <~ p_capacityOfArray row ;; e <~ p_getSetValues row ;;
  p_insertsImpl (p_crs_inc row nnz c) (p_entry_event nnz ws e) row cols.
Definition p_crs_removeNonZero (row : nat) (col : V) : prog bool :=
  nnz <~ p_sizeOfArray row ;; c <~ p_capacityOfArray row ;; e <~ p_getSetValues row ;;
  p_removeImpl (p_entry_event nnz [] e) row col.
Definition p_crs_removeNonZeros (row : nat) (cols : list V) : prog nat :=
  e <~ p_getSetValues row ;; nnz <~ p_sizeOfArray row ;; c <~ p_capacityOfArray row ;;
  nRemoved <~ p_removesImpl (p_entry_event nnz [] e) row cols ;;
  first <~ p_sub V W (e + nnz) nRemoved ;;
  _ <~ p_destroy V W BEnts tw first nRemoved ;;
  Ret nRemoved.
(** CRSMatrixView.hpp:240-246 getEntries( row )[ j ], see [entry] *)
Definition p_entry (row j : nat) : prog W :=
  e <~ p_getSetValues row ;; s <~ p_size_ row ;; _ <~ p_check V W chk (s <=? j) ;; p_rd V W BEnts (e + j).
(** CRSMatrixView.hpp:345-357 setValues, the work on one row *)
Definition p_set_row (row : nat) (w : W) : prog unit :=
  nnz <~ p_sizeOfArray row ;; e <~ p_getSetValues row ;;
  p_up nnz (fun i => p_store V W BEnts tw (e + i) (Obj w)) 0.
End ViewProg.

(** SparsityPatternView.hpp:316-385, see Sparsity.v; the column checks are local to the thread. *)
Section PatternProg.
Variable W : Type.
Variable chk : bool.
Variables (n nc : nat).
Notation prog := (prog Z W).
Definition p_column_check (col : Z) : prog unit := p_check Z W chk ((col <? 0) || (Z.of_nat nc <=? col))%Z.
Fixpoint p_column_checks (cols : list Z) : prog unit :=
  match cols with [] => Ret tt | c :: cs => _ <~ p_column_check c ;; p_column_checks cs end.
Definition p_insertNonZero (row : nat) (col : Z) : prog bool :=
  _ <~ p_check_array Z W chk n row ;; _ <~ p_column_check col ;; p_v_insertIntoSet W chk true n Z.ltb Z.eqb row col.
Definition p_insertNonZeros (row : nat) (cols : list Z) : prog nat :=
  _ <~ p_check_array Z W chk n row ;; _ <~ (if chk then p_column_checks cols else Ret tt) ;;
  p_v_insertsIntoSet W chk true n Z.ltb Z.eqb row cols.
Definition p_removeNonZero (row : nat) (col : Z) : prog bool :=
  _ <~ p_check_array Z W chk n row ;; _ <~ p_column_check col ;; p_removeFromSet W chk true n Z.ltb Z.eqb row col.
Definition p_removeNonZeros (row : nat) (cols : list Z) : prog nat :=
  _ <~ p_check_array Z W chk n row ;; _ <~ (if chk then p_column_checks cols else Ret tt) ;;
  p_removesFromSet W chk true n Z.ltb Z.eqb row cols.
End PatternProg.
