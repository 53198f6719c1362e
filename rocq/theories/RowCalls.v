(** The calls of RowSpec.v: the members of the views, as programs over the shared memory and as functions of the
    sequential model. A thread makes its calls in order and collects the answers. *)
From Coq Require Import List Arith ZArith Bool.
From Verif Require Import Base Mem BufferManip AoA Sorted AoS Sparsity CRS Prog ViewProg RowSpec.
Import ListNotations.
Set Implicit Arguments.

Definition ret {V W A} (p : prog V W unit) (x : A) : prog V W A := _ <~ p ;; Ret x.
Definition pmap {V W A B} (f : A -> B) (p : prog V W A) : prog V W B := x <~ p ;; Ret (f x).
Definition oret {A B} (m : outcome A) (x : B) : outcome (A * B) := a <- m ;; Ok (a, x).
Definition omap {A B C} (f : B -> C) (m : outcome (A * B)) : outcome (A * C) := '(a, x) <- m ;; Ok (a, f x).
Definition onew {A B C} (f : B -> C) (a : A) (m : outcome B) : outcome (A * C) := x <- m ;; Ok (a, f x).
Definition orows {W B C} (f : B -> C) (m : outcome (pattern W * B)) : outcome (aoa Z W * C) := '(p, x) <- m ;; Ok (rows p, f x).

Section Arrays.
Variables V W : Type.
Variable chk tv : bool.
(** ArrayOfArraysView: emplaceBack, appendToArray, emplace, insertIntoArray, eraseFromArray, operator( i, j ) = v,
    operator( i, j ), sizeOfArray *)
Definition p_vcall (n : nat) (op : vcall V) (i : nat) : prog V W (answer V) :=
  match op with
  | VBack v => ret (p_v_emplaceBack W chk tv n i v) Done
  | VAppend vs => ret (p_v_appendToArray W chk tv n i vs) Done
  | VEmplace j v => ret (p_v_emplace W chk tv n i j v) Done
  | VInsert j vs => ret (p_v_insertIntoArray W chk tv n i j vs) Done
  | VErase j k => ret (p_eraseFromArray V W chk tv n i j k) Done
  | VSet j v => ret (p_set W chk tv n i j v) Done
  | VGet j => pmap (@Value V) (p_at V W chk n i j)
  | VSize => pmap (@Count V) (p_sizeOfArray V W chk n i)
  end.
Definition f_vcall (op : vcall V) (a : aoa V W) (i : nat) : outcome (aoa V W * answer V) :=
  match op with
  | VBack v => oret (v_emplaceBack chk tv a i v) Done
  | VAppend vs => oret (v_appendToArray chk tv a i vs) Done
  | VEmplace j v => oret (v_emplace chk tv a i j v) Done
  | VInsert j vs => oret (v_insertIntoArray chk tv a i j vs) Done
  | VErase j k => oret (eraseFromArray chk tv a i j k) Done
  | VSet j v => oret (aoa_set chk tv a i j v) Done
  | VGet j => onew (@Value V) a (aoa_at chk a i j)
  | VSize => onew (@Count V) a (sizeOfArray chk a i)
  end.

(** ArrayOfSetsView: insertIntoSet, removeFromSet, contains, operator()( i, j ), sizeOfSet *)
Variable lt eqb : V -> V -> bool.
Definition p_scall (n : nat) (op : scall V) (i : nat) : prog V W (answer V) :=
  match op with
  | SInsert v => pmap (@Truth V) (p_v_insertIntoSet W chk tv n lt eqb i v)
  | SInserts vs => pmap (@Count V) (p_v_insertsIntoSet W chk tv n lt eqb i vs)
  | SRemove v => pmap (@Truth V) (p_removeFromSet W chk tv n lt eqb i v)
  | SRemoves vs => pmap (@Count V) (p_removesFromSet W chk tv n lt eqb i vs)
  | SContains v => pmap (@Truth V) (p_contains W chk n lt eqb i v)
  | SGet j => pmap (@Value V) (p_at V W chk n i j)
  | SSize => pmap (@Count V) (p_sizeOfArray V W chk n i)
  end.
Definition f_scall (op : scall V) (a : aoa V W) (i : nat) : outcome (aoa V W * answer V) :=
  match op with
  | SInsert v => omap (@Truth V) (v_insertIntoSet chk tv lt eqb a i v)
  | SInserts vs => omap (@Count V) (v_insertsIntoSet chk tv lt eqb a i vs)
  | SRemove v => omap (@Truth V) (removeFromSet chk tv lt eqb a i v)
  | SRemoves vs => omap (@Count V) (removesFromSet chk tv lt eqb a i vs)
  | SContains v => onew (@Truth V) a (aos_contains chk lt eqb a i v)
  | SGet j => onew (@Value V) a (aoa_at chk a i j)
  | SSize => onew (@Count V) a (sizeOfArray chk a i)
  end.
End Arrays.

(** SparsityPatternView with [nc] columns: insertNonZero(s), removeNonZero(s), empty( row, col ), getColumns( row )[ j ],
    numNonZeros( row ) *)
Section Patterns.
Variable W : Type.
Variable chk : bool.
Variable nc : nat.
Definition p_pcall (n : nat) (op : scall Z) (i : nat) : prog Z W (answer Z) :=
  match op with
  | SInsert v => pmap (@Truth Z) (p_insertNonZero W chk n nc i v)
  | SInserts vs => pmap (@Count Z) (p_insertNonZeros W chk n nc i vs)
  | SRemove v => pmap (@Truth Z) (p_removeNonZero W chk n nc i v)
  | SRemoves vs => pmap (@Count Z) (p_removeNonZeros W chk n nc i vs)
  | SContains v => pmap (fun b => Truth (negb b)) (p_contains W chk n Z.ltb Z.eqb i v)
  | SGet j => pmap (@Value Z) (p_at Z W chk n i j)
  | SSize => pmap (@Count Z) (p_sizeOfArray Z W chk n i)
  end.
Definition f_pcall (op : scall Z) (a : aoa Z W) (i : nat) : outcome (aoa Z W * answer Z) :=
  let p := mkSP a nc in
  match op with
  | SInsert v => orows (@Truth Z) (v_insertNonZero chk p i v)
  | SInserts vs => orows (@Count Z) (v_insertNonZeros chk p i vs)
  | SRemove v => orows (@Truth Z) (removeNonZero chk p i v)
  | SRemoves vs => orows (@Count Z) (removeNonZeros chk p i vs)
  | SContains v => onew (@Truth Z) a (sp_empty chk p i v)
  | SGet j => onew (@Value Z) a (column chk p i j)
  | SSize => onew (@Count Z) a (numNonZeros chk p i)
  end.

(** CRSMatrixView: insertNonZero(s), removeNonZero(s), empty( row, col ), getColumns( row )[ j ], getEntries( row )[ j ],
    numNonZeros( row ), the work of setValues on one row *)
Variable tw : bool.
Definition p_mcall (n : nat) (op : mcall W) (i : nat) : prog Z W (answer (Z + W)) :=
  match op with
  | MInsert c w => pmap (@Truth _) (p_crs_insertNonZero chk true tw n Z.ltb Z.eqb i c w)
  | MInserts cws => pmap (@Count _) (p_crs_insertNonZeros chk true tw n Z.ltb Z.eqb i (map fst cws) (map snd cws))
  | MRemove c => pmap (@Truth _) (p_crs_removeNonZero W chk true tw n Z.ltb Z.eqb i c)
  | MRemoves cs => pmap (@Count _) (p_crs_removeNonZeros W chk true tw n Z.ltb Z.eqb i cs)
  | MEmpty c => pmap (fun b => Truth (negb b)) (p_contains W chk n Z.ltb Z.eqb i c)
  | MColumn j => pmap (fun c => Value (inl c)) (p_at Z W chk n i j)
  | MEntry j => pmap (fun w => Value (inr w)) (p_entry Z W chk n i j)
  | MSize => pmap (@Count _) (p_sizeOfArray Z W chk n i)
  | MSet w => ret (p_set_row Z chk tw n i w) Done
  end.
Definition f_mcall (op : mcall W) (a : aoa Z W) (i : nat) : outcome (aoa Z W * answer (Z + W)) :=
  let p := mkSP a nc in
  match op with
  | MInsert c w => orows (@Truth _) (crs_v_insertNonZero chk tw p i c w)
  | MInserts cws => orows (@Count _) (crs_v_insertNonZeros chk tw p i (map fst cws) (map snd cws))
  | MRemove c => orows (@Truth _) (crs_removeNonZero chk tw p i c)
  | MRemoves cs => orows (@Count _) (crs_removeNonZeros chk tw p i cs)
  | MEmpty c => onew (@Truth _) a (sp_empty chk p i c)
  | MColumn j => onew (fun c => Value (inl c)) a (column chk p i j)
  | MEntry j => onew (fun w => Value (inr w)) a (entry chk p i j)
  | MSize => onew (@Count _) a (numNonZeros chk p i)
  | MSet w => oret (set_row chk tw w a i) Done
  end.
End Patterns.
