(** ChaiBuffer (ChaiBuffer.hpp): handles with shallow copies which share a pointer record, and memory
    in several spaces.

    Spaces are numbered; 0 is the host (chai::CPU), 1 the device (chai::GPU). A build with CUDA is
    modelled (LVARRAY_USE_CUDA); without it [move] only checks that the space is the host.

    chai::ArrayManager and chai::PointerRecord are not part of the repository. Their documented
    behaviour is written down below ([manager_allocate], [manager_free], [manager_move]) and belongs to
    the trusted base. Copies between spaces are bytewise, so that values are trivially copyable; a slot
    without a value is [None]. *)
From Coq Require Import List Arith Lia Bool.
From Verif Require Import Base.
Import ListNotations.
Set Implicit Arguments.

(** ** Programs over several buffers, named by the order of their construction *)
Section Ops.
Variable V : Type.
Inductive cop : Type :=
| CNew                                     (* ChaiBuffer( true ) *)
| CCopy (h : nat) (es : option nat)        (* copy construction; es: execution space, None: chai::NONE *)
| CConst (h : nat)                         (* ChaiBuffer< T const >( ChaiBuffer< T > const & ) *)
| CSteal (h : nat)                         (* move construction *)
| CAssign (d s : nat)                      (* copy assignment *)
| CMoveAssign (d s : nat)                  (* move assignment *)
| CMove (h : nat) (s : option nat) (touch : bool)
| CTouch (h s : nat)                       (* registerTouch *)
| CRealloc (h size s cap : nat)
| CFree (h : nat)
| CWrite (h i s : nat) (v : V)             (* code running in space s assigns to buf[ i ] *)
| CRead (h i s : nat).                     (* code running in space s reads buf[ i ] *)
End Ops.
Arguments CNew {V}. Arguments CCopy {V}. Arguments CConst {V}. Arguments CSteal {V}. Arguments CAssign {V}.
Arguments CMoveAssign {V}. Arguments CMove {V}. Arguments CTouch {V}. Arguments CRealloc {V}. Arguments CFree {V}.
Arguments CRead {V}.

Section Chai.
Variable V : Type.
(** NUM_EXECUTION_SPACES without NONE *)
Variable nspaces : nat.

(** An allocation: its space and its contents. *)
Record block : Type := mkBlock { k_space : nat; k_data : list (option V) }.
(** chai::PointerRecord: m_size (here in values), m_pointers, m_touched, m_last_space (None: NONE). *)
Record record : Type := mkRec
  { r_size : nat; r_ptrs : list (option nat); r_touched : list bool; r_last : option nat }.
(** ChaiBuffer.hpp:489-495: m_pointer, m_capacity, m_pointerRecord; [c_const]: T is const. *)
Record cbuf : Type := mkBuf { c_ptr : option nat; c_cap : nat; c_rec : option nat; c_const : bool }.
(** Blocks and records which are gone are [None]. *)
Record world : Type := mkWorld
  { w_blocks : list (option block); w_recs : list (option record); w_bufs : list cbuf }.

Definition get {A} (l : list A) (i : nat) : outcome A := aget l i.
(** Dereference of a pointer to a record or block that may be gone. *)
Definition live {A} (l : list (option A)) (i : nat) : outcome A :=
  x <- aget l i ;; match x with Some a => Ok a | None => Fault FDangling end.
Definition nonnull (p : option nat) : outcome nat := match p with Some i => Ok i | None => Fault FOob end.

(** ** The array manager *)
(** allocate( record, space ): a fresh block of m_size values, stored in m_pointers[ space ]. *)
Definition manager_allocate (w : world) (ri s : nat) : outcome (world * nat) :=
  r <- live (w_recs w) ri ;;
  let b := length (w_blocks w) in
  ptrs <- aset (r_ptrs r) s (Some b) ;;
  recs <- aset (w_recs w) ri (Some (mkRec (r_size r) ptrs (r_touched r) (r_last r))) ;;
  Ok (mkWorld (w_blocks w ++ [Some (mkBlock s (repeat None (r_size r)))]) recs (w_bufs w), b).
(** free( record ): all its blocks and the record itself. *)
Fixpoint free_blocks (ps : list (option nat)) (bs : list (option block)) : outcome (list (option block)) :=
  match ps with
  | [] => Ok bs
  | None :: ps' => free_blocks ps' bs
  | Some b :: ps' => _ <- live bs b ;; bs' <- aset bs b None ;; free_blocks ps' bs'
  end.
Definition manager_free (w : world) (ri : nat) : outcome world :=
  r <- live (w_recs w) ri ;;
  bs <- free_blocks (r_ptrs r) (w_blocks w) ;;
  recs <- aset (w_recs w) ri None ;;
  Ok (mkWorld bs recs (w_bufs w)).
(** move( pointer, record, space ): nothing if space is the last space; otherwise allocate if need be
    and, if the last space was touched, copy from there and reset all touches. Returns
    m_pointers[ space ]. *)
Definition manager_move (w : world) (ri s : nat) : outcome (world * nat) :=
  r <- live (w_recs w) ri ;;
  l <- nonnull (r_last r) ;;
  if l =? s then p <- aget (r_ptrs r) s ;; b <- nonnull p ;; Ok (w, b)
  else
  p <- aget (r_ptrs r) s ;;
  '(w1, b) <- match p with Some b => Ok (w, b) | None => manager_allocate w ri s end ;;
  r1 <- live (w_recs w1) ri ;;
  t <- aget (r_touched r1) l ;;
  if t : bool then
    p <- aget (r_ptrs r1) l ;;
    src <- nonnull p ;;
    sb <- live (w_blocks w1) src ;;
    db <- live (w_blocks w1) b ;;
    bs <- aset (w_blocks w1) b (Some (mkBlock (k_space db) (k_data sb))) ;;
    recs <- aset (w_recs w1) ri (Some (mkRec (r_size r1) (r_ptrs r1) (repeat false nspaces) (r_last r1))) ;;
    Ok (mkWorld bs recs (w_bufs w1), b)
  else Ok (w1, b).

(** ** ChaiBuffer *)
Definition set_buf (w : world) (h : nat) (c : cbuf) : outcome world :=
  bs <- aset (w_bufs w) h c ;; Ok (mkWorld (w_blocks w) (w_recs w) bs).
Definition push_buf (w : world) (c : cbuf) : world := mkWorld (w_blocks w) (w_recs w) (w_bufs w ++ [c]).
Definition null_buf (c : cbuf) : cbuf := mkBuf None 0 None (c_const c).

(** ChaiBuffer.hpp:123-135 *)
Definition chai_new (w : world) : world :=
  mkWorld (w_blocks w) (w_recs w ++ [Some (mkRec 0 (repeat None nspaces) (repeat false nspaces) None)])
    (w_bufs w ++ [mkBuf None 0 (Some (length (w_recs w))) false]).

(** ChaiBuffer.hpp:430-436 registerTouch *)
Definition chai_touch (w : world) (h s : nat) : outcome world :=
  c <- aget (w_bufs w) h ;;
  ri <- nonnull (c_rec c) ;;
  r <- live (w_recs w) ri ;;
  ts <- aset (r_touched r) s true ;;
  recs <- aset (w_recs w) ri (Some (mkRec (r_size r) (r_ptrs r) ts (Some s))) ;;
  Ok (mkWorld (w_blocks w) recs (w_bufs w)).

(** ChaiBuffer.hpp:398-418 move *)
Definition chai_move (w : world) (h : nat) (s : option nat) (touch : bool) : outcome world :=
  c <- aget (w_bufs w) h ;;
  match s, c_rec c with
  | Some s, Some ri =>
      if c_cap c =? 0 then Ok w
      else
      '(w1, b) <- manager_move w ri s ;;
      r <- live (w_recs w1) ri ;;
      ts <- (if (negb (c_const c) && touch)%bool then aset (r_touched r) s true else Ok (r_touched r)) ;;
      recs <- aset (w_recs w1) ri (Some (mkRec (r_size r) (r_ptrs r) ts (Some s))) ;;
      set_buf (mkWorld (w_blocks w1) recs (w_bufs w1)) h (mkBuf (Some b) (c_cap c) (Some ri) (c_const c))
  | _, _ => Ok w
  end.

(** ChaiBuffer.hpp:183-191 copy constructor, host code *)
Definition chai_copy (w : world) (h : nat) (es : option nat) : outcome world :=
  c <- aget (w_bufs w) h ;;
  chai_move (push_buf w c) (length (w_bufs w)) es true.
(** ChaiBuffer.hpp:231-239: shallow copy with another type *)
Definition chai_const (w : world) (h : nat) : outcome world :=
  c <- aget (w_bufs w) h ;;
  Ok (push_buf w (mkBuf (c_ptr c) (c_cap c) (c_rec c) true)).
(** ChaiBuffer.hpp:218-227 move constructor *)
Definition chai_steal (w : world) (h : nat) : outcome world :=
  c <- aget (w_bufs w) h ;;
  set_buf (push_buf w c) h (null_buf c).
(** ChaiBuffer.hpp:247-253 *)
Definition chai_assign (w : world) (d s : nat) : outcome world :=
  c <- aget (w_bufs w) s ;; set_buf w d c.
(** ChaiBuffer.hpp:261-272 *)
Definition chai_move_assign (w : world) (d s : nat) : outcome world :=
  c <- aget (w_bufs w) s ;;
  w1 <- set_buf w d c ;;
  set_buf w1 s (null_buf c).

(** ChaiBuffer.hpp:320-327 free *)
Definition chai_free (w : world) (h : nat) : outcome world :=
  c <- aget (w_bufs w) h ;;
  ri <- nonnull (c_rec c) ;;
  w1 <- manager_free w ri ;;
  set_buf w1 h (null_buf c).

(** ChaiBuffer.hpp:281-313 reallocate: the values below [size] are moved over (host only). *)
Definition chai_reallocate (w : world) (h size s newCapacity : nat) : outcome world :=
  c <- aget (w_bufs w) h ;;
  ri <- nonnull (c_rec c) ;;
  _ <- live (w_recs w) ri ;;
  let nri := length (w_recs w) in
  let w0 := mkWorld (w_blocks w) (w_recs w ++ [Some (mkRec newCapacity (repeat None nspaces) (repeat false nspaces) None)]) (w_bufs w) in
  '(w1, b) <- manager_allocate w0 nri s ;;
  w2 <- (if 0 <? size then
           _ <- error_if (negb (s =? 0)) ;;
           p <- nonnull (c_ptr c) ;;
           old <- live (w_blocks w1) p ;;
           (* host code reads and destroys [0, size) through m_pointer *)
           _ <- (if (k_space old =? 0) && (size <=? length (k_data old)) then Ok tt else Fault FOob) ;;
           nb <- live (w_blocks w1) b ;;
           let n := Nat.min newCapacity size in
           bs <- aset (w_blocks w1) b (Some (mkBlock (k_space nb) (firstn n (k_data old) ++ skipn n (k_data nb)))) ;;
           Ok (mkWorld bs (w_recs w1) (w_bufs w1))
         else Ok w1) ;;
  w3 <- chai_free w2 h ;;
  w4 <- set_buf w3 h (mkBuf (Some b) newCapacity (Some nri) (c_const c)) ;;
  chai_touch w4 h s.

(** ChaiBuffer.hpp:353-360 operator[], used by code running in space s. *)
Definition chai_write (w : world) (h i s : nat) (v : V) : outcome world :=
  c <- aget (w_bufs w) h ;;
  p <- nonnull (c_ptr c) ;;
  b <- live (w_blocks w) p ;;
  _ <- (if k_space b =? s then Ok tt else Fault FDangling) ;;
  d <- aset (k_data b) i (Some v) ;;
  bs <- aset (w_blocks w) p (Some (mkBlock (k_space b) d)) ;;
  Ok (mkWorld bs (w_recs w) (w_bufs w)).
Definition chai_read (w : world) (h i s : nat) : outcome V :=
  c <- aget (w_bufs w) h ;;
  p <- nonnull (c_ptr c) ;;
  b <- live (w_blocks w) p ;;
  _ <- (if k_space b =? s then Ok tt else Fault FDangling) ;;
  x <- aget (k_data b) i ;;
  match x with Some v => Ok v | None => Fault FRead end.

Definition plain (m : outcome world) : outcome (world * option V) := w <- m ;; Ok (w, None).
Definition chai_step (o : cop V) (w : world) : outcome (world * option V) :=
  match o with
  | CNew => Ok (chai_new w, None)
  | CCopy h es => plain (chai_copy w h es)
  | CConst h => plain (chai_const w h)
  | CSteal h => plain (chai_steal w h)
  | CAssign d s => plain (chai_assign w d s)
  | CMoveAssign d s => plain (chai_move_assign w d s)
  | CMove h s touch => plain (chai_move w h s touch)
  | CTouch h s => plain (chai_touch w h s)
  | CRealloc h size s cap => plain (chai_reallocate w h size s cap)
  | CFree h => plain (chai_free w h)
  | CWrite h i s v => plain (chai_write w h i s v)
  | CRead h i s => v <- chai_read w h i s ;; Ok (w, Some v)
  end.
(** Runs a program; collects the values read. *)
Fixpoint chai_run (l : list (cop V)) (w : world) : outcome (world * list V) :=
  match l with
  | [] => Ok (w, [])
  | o :: l' =>
      '(w1, x) <- chai_step o w ;;
      '(w2, ys) <- chai_run l' w1 ;;
      Ok (w2, match x with Some v => v :: ys | None => ys end)
  end.
Definition empty_world : world := mkWorld [] [] [].
End Chai.
