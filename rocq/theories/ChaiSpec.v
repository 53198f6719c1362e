(** What programs over ChaiBuffers mean: arrays with one value per slot, whatever the space. The
    protocol: a buffer is used in the space it and its array were last moved to, written only after a
    touching move (or allocation) there. *)
From Coq Require Import List Arith Bool.
From Verif Require Import Chai.
Import ListNotations.
Set Implicit Arguments.

Section Spec.
Variable V : Type.
Variable nspaces : nat.
(** contents, the current space (None before the first allocation), touched in the current space *)
Record larray : Type := mkL { l_vals : list (option V); l_cur : option nat; l_dirty : bool }.
(** a handle: its array, the space it points into, const or not *)
Record handle : Type := mkH { h_arr : option nat; h_space : option nat; h_const : bool }.
Record sstate : Type := mkS { s_arrs : list (option larray); s_hs : list handle }.

Definition put {A} (l : list A) (i : nat) (x : A) : list A := firstn i l ++ x :: skipn (S i) l.
Definition arr_of (st : sstate) (h : handle) : option (nat * larray) :=
  match h_arr h with
  | Some i => match nth_error (s_arrs st) i with Some (Some a) => Some (i, a) | _ => None end
  | None => None
  end.
Definition gone (h : handle) : handle := mkH None None (h_const h).

(** move: with more than two spaces an array must have been touched where it is. *)
Definition spec_move (st : sstate) (n : nat) (s : option nat) (touch : bool) : option sstate :=
  match nth_error (s_hs st) n with
  | None => None
  | Some h =>
      match s, h_arr h with
      | None, _ | _, None => Some st
      | Some s, Some _ =>
          match arr_of st h with
          | None => None
          | Some (i, a) =>
              match l_vals a, l_cur a with
              | [], _ => Some st
              | _, None => None
              | _, Some c =>
                  let t := (negb (h_const h) && touch)%bool in
                  if c =? s then
                    Some (mkS (put (s_arrs st) i (Some (mkL (l_vals a) (Some c) (l_dirty a || t))))
                              (put (s_hs st) n (mkH (h_arr h) (Some s) (h_const h))))
                  else if ((s <? nspaces) && ((nspaces <=? 2) || l_dirty a))%bool then
                    Some (mkS (put (s_arrs st) i (Some (mkL (l_vals a) (Some s) t)))
                              (put (s_hs st) n (mkH (h_arr h) (Some s) (h_const h))))
                  else None
              end
          end
      end
  end.

Definition eqo (a : option nat) (s : nat) : bool := match a with Some x => x =? s | None => false end.
Definition is_null (a : option nat) : bool := match a with Some _ => false | None => true end.

Definition spec_step (o : cop V) (st : sstate) : option (sstate * option V) :=
  let plain m := match m with Some st' => Some (st', None) | None => None end in
  match o with
  | CNew => Some (mkS (s_arrs st ++ [Some (mkL [] None false)]) (s_hs st ++ [mkH (Some (length (s_arrs st))) None false]), None)
  | CCopy n es =>
      match nth_error (s_hs st) n with
      | Some h => plain (spec_move (mkS (s_arrs st) (s_hs st ++ [h])) (length (s_hs st)) es true)
      | None => None
      end
  | CConst n =>
      match nth_error (s_hs st) n with
      | Some h => Some (mkS (s_arrs st) (s_hs st ++ [mkH (h_arr h) (h_space h) true]), None)
      | None => None
      end
  | CSteal n =>
      match nth_error (s_hs st) n with
      | Some h => Some (mkS (s_arrs st) (put (s_hs st) n (gone h) ++ [h]), None)
      | None => None
      end
  | CAssign d s =>
      match nth_error (s_hs st) d, nth_error (s_hs st) s with
      | Some hd, Some hs => if eqb (h_const hd) (h_const hs) then Some (mkS (s_arrs st) (put (s_hs st) d hs), None) else None
      | _, _ => None
      end
  | CMoveAssign d s =>
      match nth_error (s_hs st) d, nth_error (s_hs st) s with
      | Some hd, Some hs =>
          if eqb (h_const hd) (h_const hs) then Some (mkS (s_arrs st) (put (put (s_hs st) d hs) s (gone hs)), None) else None
      | _, _ => None
      end
  | CMove n s touch => plain (spec_move st n s touch)
  | CTouch n s =>
      match nth_error (s_hs st) n with
      | Some h =>
          match arr_of st h with
          | Some (i, a) => if eqo (l_cur a) s then Some (mkS (put (s_arrs st) i (Some (mkL (l_vals a) (l_cur a) true))) (s_hs st), None) else None
          | None => None
          end
      | None => None
      end
  | CRealloc n size s cap =>
      match nth_error (s_hs st) n with
      | Some h =>
          match arr_of st h with
          | Some (i, a) =>
              if ((s <? nspaces) && negb (h_const h) &&
                  ((size =? 0) || ((s =? 0) && eqo (h_space h) 0 && eqo (l_cur a) 0 && (size <=? length (l_vals a)))))%bool
              then
                let kept := firstn (Nat.min cap size) (l_vals a) in
                Some (mkS (put (s_arrs st) i None ++ [Some (mkL (kept ++ repeat None (cap - length kept)) (Some s) true)])
                          (put (s_hs st) n (mkH (Some (length (s_arrs st))) (Some s) (h_const h))), None)
              else None
          | None => None
          end
      | None => None
      end
  | CFree n =>
      match nth_error (s_hs st) n with
      | Some h =>
          match arr_of st h with
          | Some (i, a) => Some (mkS (put (s_arrs st) i None) (put (s_hs st) n (gone h)), None)
          | None => None
          end
      | None => None
      end
  | CWrite n i s v =>
      match nth_error (s_hs st) n with
      | Some h =>
          match arr_of st h with
          | Some (k, a) =>
              if (negb (h_const h) && eqo (h_space h) s && eqo (l_cur a) s && l_dirty a && (i <? length (l_vals a)))%bool
              then Some (mkS (put (s_arrs st) k (Some (mkL (put (l_vals a) i (Some v)) (l_cur a) true))) (s_hs st), None)
              else None
          | None => None
          end
      | None => None
      end
  | CRead n i s =>
      match nth_error (s_hs st) n with
      | Some h =>
          match arr_of st h with
          | Some (_, a) =>
              if (eqo (h_space h) s && eqo (l_cur a) s)%bool
              then match nth_error (l_vals a) i with Some (Some v) => Some (st, Some v) | _ => None end
              else None
          | None => None
          end
      | None => None
      end
  end.
Fixpoint spec_run (l : list (cop V)) (st : sstate) : option (sstate * list V) :=
  match l with
  | [] => Some (st, [])
  | o :: l' =>
      match spec_step o st with
      | Some (st1, x) =>
          match spec_run l' st1 with
          | Some (st2, ys) => Some (st2, match x with Some v => v :: ys | None => ys end)
          | None => None
          end
      | None => None
      end
  end.
Definition spec_empty : sstate := mkS [] [].

(** ** The same programs without any memory spaces: plain arrays and references to them *)
Definition flat : Type := (list (list (option V)) * list (option nat))%type.
Definition flat_step (o : cop V) (f : flat) : option (flat * option V) :=
  let '(arrs, hs) := f in
  let at_ h (k : option nat -> option (flat * option V)) := match nth_error hs h with Some x => k x | None => None end in
  match o with
  | CNew => Some ((arrs ++ [[]], hs ++ [Some (length arrs)]), None)
  | CCopy h _ | CConst h => at_ h (fun x => Some ((arrs, hs ++ [x]), None))
  | CSteal h => at_ h (fun x => Some ((arrs, put hs h None ++ [x]), None))
  | CAssign d s => at_ s (fun x => Some ((arrs, put hs d x), None))
  | CMoveAssign d s => at_ s (fun x => Some ((arrs, put (put hs d x) s None), None))
  | CMove _ _ _ | CTouch _ _ => Some (f, None)
  | CRealloc h size _ cap =>
      at_ h (fun x => match x with
        | Some i => match nth_error arrs i with
            | Some vs => let kept := firstn (Nat.min cap size) vs in
                         Some ((arrs ++ [kept ++ repeat None (cap - length kept)], put hs h (Some (length arrs))), None)
            | None => None end
        | None => None end)
  | CFree h => Some ((arrs, put hs h None), None)
  | CWrite h i _ v =>
      at_ h (fun x => match x with
        | Some k => match nth_error arrs k with Some vs => Some ((put arrs k (put vs i (Some v)), hs), None) | None => None end
        | None => None end)
  | CRead h i _ =>
      at_ h (fun x => match x with
        | Some k => match nth_error arrs k with
            | Some vs => match nth_error vs i with Some (Some v) => Some (f, Some v) | _ => None end
            | None => None end
        | None => None end)
  end.
Fixpoint flat_run (l : list (cop V)) (f : flat) : option (list V) :=
  match l with
  | [] => Some []
  | o :: l' =>
      match flat_step o f with
      | Some (f1, x) => match flat_run l' f1 with
          | Some ys => Some (match x with Some v => v :: ys | None => ys end)
          | None => None end
      | None => None
      end
  end.
End Spec.
