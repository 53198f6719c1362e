(** Containers of several buffers without memory spaces, and the protocols under which the two agree. *)
From Coq Require Import List Arith Bool.
From Verif Require Import Base Spaces.
Import ListNotations.
Set Implicit Arguments.

Section Spec.
Variable X N O : Type.
Notation contents := (contents X).
Notation sop := (sop X N O).

(** ** One space: a method and a kernel change the contents; moving and touching means nothing. *)
Fixpoint keep (mut : list bool) (old new : contents) : outcome contents :=
  match mut, old, new with
  | [], [], [] => Ok []
  | m :: mut', a :: old', b :: new' =>
      (* a kernel cannot change the capacity of a buffer, nor anything in a const one *)
      x <- (if m then if length a =? length b then Ok b else Fault FOob else Ok a) ;;
      xs <- keep mut' old' new' ;;
      Ok (x :: xs)
  | _, _, _ => Fault FOob
  end.
Definition flat : Type := (N * contents)%type.
Definition flat_step (o : sop) (x : flat) : outcome (flat * list O) :=
  let '(n, cs) := x in
  match o with
  | SHost f =>
      '(n', ds, ts, r) <- f n cs ;;
      if ((length ds =? length cs) && (length ts =? length cs))%bool then Ok ((n', ds), [r]) else Fault FOob
  | SKernel _ mut g | SDirect _ mut g =>
      _ <- (if length mut =? length cs then Ok tt else Fault FOob) ;;
      '(ds, r) <- g n cs ;;
      ds' <- keep mut cs ds ;;
      Ok ((n, ds'), [r])
  | SMove _ _ | STouch _ => Ok (x, [])
  end.
Fixpoint flat_run (l : list sop) (x : flat) : outcome (flat * list O) :=
  match l with
  | [] => Ok (x, [])
  | o :: l' =>
      '(x1, r) <- flat_step o x ;;
      '(x2, rs) <- flat_run l' x1 ;;
      Ok (x2, r ++ rs)
  end.

(** ** The protocol *)
Variable dev : list bool.
(** Where the pointers of the container point to, where its data is, and for each buffer whether it is known to be marked as
    modified there. *)
Record place : Type := mkPlace { p_own : nat; p_cur : nat; p_marks : list bool }.
(** A host method may leave [b] in a buffer which held [a]: the buffer is marked, or gets marked by the method, or is
    reallocated, or is not changed. *)
Definition covered (d t : bool) (a b : list (option X)) : Prop :=
  (d = true \/ t = true \/ length a <> length b \/ a = b) /\ (t = true -> b <> []).
Fixpoint all_covered (ds ts : list bool) (old new : contents) : Prop :=
  match ds, ts, old, new with
  | d :: ds', t :: ts', a :: old', b :: new' => covered d t a b /\ all_covered ds' ts' old' new'
  | _, _, _, _ => True
  end.
Fixpoint host_marks (ds ts : list bool) (old new : contents) : list bool :=
  match ds, ts, old, new with
  | d :: ds', t :: ts', a :: old', b :: new' =>
      (d || t || negb (length a =? length b))%bool :: host_marks ds' ts' old' new'
  | _, _, _, _ => []
  end.
(** Marks after an arrival in space [s]: kept if the data is there already. *)
Fixpoint marks_in (same : bool) (ds ms : list bool) : list bool :=
  match ds, ms with d :: ds', m :: ms' => ((same && d) || m)%bool :: marks_in same ds' ms' | _, _ => [] end.

Definition allowed (o : sop) (p : place) (x : flat) : Prop :=
  match o with
  | SHost f =>
      p_own p = 0 /\ p_cur p = 0 /\
      match f (fst x) (snd x) with
      | Ok (_, ds, ts, _) => length ds = length (snd x) -> length ts = length (snd x) -> all_covered (p_marks p) ts (snd x) ds
      | _ => True
      end
  | SKernel s _ _ | SMove s _ => s < 2
  | SDirect s mut _ => p_own p = s /\ p_cur p = s /\ forall i, nth_error mut i = Some true -> nth_error (p_marks p) i = Some true
  | STouch s => p_cur p = s /\ Forall (fun l => l <> []) (snd x)
  end.
Definition place_step (o : sop) (p : place) (x : flat) : place :=
  match o with
  | SHost f =>
      match f (fst x) (snd x) with
      | Ok (_, ds, ts, _) => mkPlace 0 0 (host_marks (p_marks p) ts (snd x) ds)
      | _ => p
      end
  | SKernel s mut _ => mkPlace (p_own p) s (marks_in (p_cur p =? s) (p_marks p) mut)
  | SDirect _ _ _ => p
  | SMove s touch => mkPlace s s (marks_in (p_cur p =? s) (p_marks p) (map (fun t => (touch && (t || (s =? 0)))%bool) dev))
  | STouch s => mkPlace (p_own p) s (map (fun _ => true) (p_marks p))
  end.
Fixpoint follows (l : list sop) (p : place) (x : flat) : Prop :=
  match l with
  | [] => True
  | o :: l' =>
      allowed o p x /\
      match flat_step o x with Ok (x', _) => follows l' (place_step o p x) x' | _ => True end
  end.
Definition home : place := mkPlace 0 0 (map (fun _ => true) dev).

(** A method touches only buffers which have memory. *)
Definition touches_memory (f : N -> contents -> outcome (N * contents * list bool * O)) : Prop :=
  forall n cs n' ds ts r i d, f n cs = Ok (n', ds, ts, r) -> nth_error ts i = Some true -> nth_error ds i = Some d -> d <> [].
(** ** A protocol without any bookkeeping: host methods are called at the beginning and after move( host, true ), before any
    other move or kernel; code that uses the container itself in space [s] comes after move( s, true ), and on the device only
    writes to the buffers which this marks. [here]: the space of the last move, if nothing happened since that matters. *)
Fixpoint tidy (here : option nat) (l : list sop) : Prop :=
  match l with
  | [] => True
  | SHost f :: l' => here = Some 0 /\ touches_memory f /\ tidy here l'
  | SKernel s _ _ :: l' => s < 2 /\ tidy None l'
  | SDirect s mut _ :: l' =>
      here = Some s /\ length mut = length dev /\ (s = 0 \/ forall i, nth_error mut i = Some true -> nth_error dev i = Some true) /\ tidy here l'
  | SMove s touch :: l' => s < 2 /\ tidy (if touch then Some s else None) l'
  | STouch _ :: _ => False
  end.
End Spec.
