(** Model of src/output.hpp (printing of arrays) and src/input.hpp (stringToArray). Text is a list of
    characters. *)
From Coq Require Import List Arith ZArith NArith Ascii Bool.
From Verif Require Import Base Mem Indexing Array.
From Verif Require BufferManip.
Import ListNotations.
Set Implicit Arguments.

Notation text := (list ascii).
(** The characters the code tests for. *)
Definition c_open : ascii := "{"%char.
Definition c_close : ascii := "}"%char.
Definition c_comma : ascii := ","%char.
Definition c_space : ascii := " "%char.

Definition is (x y : ascii) : bool := Ascii.eqb x y.

(** std::isspace in the "C" locale: tab, newline, vertical tab, form feed, carriage return, space. *)
Definition isspace (c : ascii) : bool :=
  let n := N_of_ascii c in ((n =? 32) || ((9 <=? n) && (n <=? 13)))%N%bool.

(** ** Helpers of the standard library used by stringToArray *)
(** std::string::find of a two-character string. *)
Fixpoint has_pair (x y : ascii) (s : text) : bool :=
  match s with
  | a :: ((b :: _) as s') => ((is a x && is b y) || has_pair x y s')%bool
  | _ => false
  end.
(** std::count *)
Definition count (x : ascii) (s : text) : nat := length (filter (is x) s).
(** erase / remove of ' ' (input.hpp:167) *)
Definition strip (s : text) : text := filter (fun c => negb (is c c_space)) s.
(** find_first_not_of( '{' ): the number of leading '{' and what follows them *)
Fixpoint leading (s : text) : nat * text :=
  match s with
  | c :: s' => if is c c_open then let '(n, r) := leading s' in (S n, r) else (0, s)
  | [] => (0, [])
  end.
Fixpoint text_eqb (a b : text) : bool :=
  match a, b with
  | [], [] => true
  | x :: a', y :: b' => (is x y && text_eqb a' b')%bool
  | _, _ => false
  end.

(** input.hpp:130-163: the loop which rejects values separated only by spaces. *)
Fixpoint no_space_delimited (s : text) (valueOnLeft spaceOnLeft : bool) : outcome unit :=
  match s with
  | [] => Ok tt
  | c :: s' =>
      if (is c c_open || is c c_comma || is c c_close)%bool then no_space_delimited s' false false
      else if is c c_space then no_space_delimited s' valueOnLeft true
      else _ <- error_if (valueOnLeft && spaceOnLeft) ;; no_space_delimited s' true false
  end.

(** input.hpp:207-266: dimLevel, dims, currentDims, dimSet and lastChar ('\0' at first). *)
Record scan_state : Type := mkScan
  { q_level : Z; q_dims : list nat; q_cur : list nat; q_set : list bool; q_last : ascii }.

(** input.hpp:227-265, the body of the loop; [more]: charCount < valueString.size() - 1. An access with
    dimLevel outside the arrays of NDIM entries is undefined. *)
Definition scan_char (more : bool) (c : ascii) (q : scan_state) : outcome scan_state :=
  let l := q_level q in
  if is c c_open then Ok (mkScan (l + 1) (q_dims q) (q_cur q) (q_set q) c)
  else if is c c_close then
    i <- to_ix l ;;
    set <- aset (q_set q) i true ;;
    d <- aget (q_dims q) i ;;
    k <- aget (q_cur q) i ;;
    _ <- error_if (negb (d =? k)) ;;
    cur <- aset (q_cur q) i 1 ;;
    _ <- error_if ((l - 1 <? 0)%Z && more) ;;
    Ok (mkScan (l - 1) (q_dims q) cur set c)
  else if is c c_comma then
    _ <- error_if (is (q_last q) c_open || is (q_last q) c_comma) ;;
    i <- to_ix l ;;
    set <- aget (q_set q) i ;;
    dims <- (if set : bool then Ok (q_dims q) else d <- aget (q_dims q) i ;; aset (q_dims q) i (d + 1)) ;;
    k <- aget (q_cur q) i ;;
    cur <- aset (q_cur q) i (k + 1) ;;
    Ok (mkScan l dims cur (q_set q) c)
  else Ok (mkScan l (q_dims q) (q_cur q) (q_set q) c).
Definition nonempty (s : text) : bool := match s with [] => false | _ => true end.
Fixpoint scan (s : text) (q : scan_state) : outcome scan_state :=
  match s with
  | [] => Ok q
  | c :: s' => q' <- scan_char (nonempty s') c q ;; scan s' q'
  end.
(** input.hpp:207-224 *)
Definition scan_start (ndim : nat) : scan_state :=
  mkScan (-1) (repeat 1 ndim) (repeat 1 ndim) (repeat false ndim) Ascii.zero.

(** input.hpp:276-287: ',' becomes ' ' and every '}' gets a ' ' in front. *)
Definition expand (s : text) : text :=
  flat_map (fun c => if is c c_comma then [c_space] else if is c c_close then [c_space; c_close] else [c]) s.

(** input.hpp:45-51 skipDelimiters; the rest of the text is the state of the stream. *)
Fixpoint skip (t : text) : text :=
  match t with c :: t' => if is c c_space then skip t' else t | [] => [] end.
(** peek() == c followed by ignore(); at the end of the text peek() is EOF. *)
Definition expect (c : ascii) (t : text) : outcome text :=
  match t with x :: t' => if is x c then Ok t' else Abort | [] => Abort end.

Section IO.
Variable V : Type.
(** operator<< of T, and operator>> of T: [conv w] reads a value off the front of the word [w] and
    leaves the rest of it; None when extraction fails. *)
Variable print : V -> text.
Variable conv : text -> option (V * text).
Variable chk triv : bool.
Variable kind : BufferManip.bkind.
Variable perm : list nat.
Variable dflt : V.
Notation array := (array V).
Notation NDIM := (length perm).

(** Formatted extraction: skip leading white space, then work on the characters up to the next white
    space. *)
Fixpoint skip_white (t : text) : text :=
  match t with c :: t' => if isspace c then skip_white t' else t | [] => [] end.
Fixpoint word (t : text) : text :=
  match t with c :: t' => if isspace c then [] else c :: word t' | [] => [] end.
Fixpoint after_word (t : text) : text :=
  match t with c :: t' => if isspace c then t else after_word t' | [] => [] end.
Definition extract (t : text) : option (V * text) :=
  let t' := skip_white t in
  match conv (word t') with
  | Some (v, w) => Some (v, w ++ after_word t')
  | None => None
  end.

(** input.hpp:58-94 Read: on a value (no dimensions left) and on a slice. *)
Fixpoint read (ndim : nat) (s : slice) (st : text * buf V) : outcome (text * buf V) :=
  match ndim with
  | O =>
      match extract (fst st) with
      | None => Abort
      | Some (v, t) => i <- to_ix (s_off s) ;; b <- assign triv (snd st) i v ;; Ok (t, b)
      end
  | S n =>
      t <- expect c_open (fst st) ;;
      match s_dims s with
      | [] => Fault FOob
      | d :: _ =>
          st' <- for_up d (fun i st =>
                   let t := skip (fst st) in
                   s' <- slice_index chk s (Z.of_nat i) ;;
                   read n s' (t, snd st)) 0 (t, snd st) ;;
          t <- expect c_close (skip (fst st')) ;;
          Ok (t, snd st')
      end
  end.

(** input.hpp:121-291 stringToArray. std::string's operator[]( 0 ) of an empty string is '\0'. *)
Definition stringToArray (a : array) (valueString : text) : outcome array :=
  _ <- no_space_delimited valueString false false ;;
  let s := strip valueString in
  if text_eqb s [c_open; c_close] then clear chk triv kind perm dflt a
  else
  _ <- error_if (has_pair c_close c_open s) ;;
  _ <- error_if (negb (is (hd Ascii.zero s) c_open)) ;;
  _ <- error_if (negb (count c_open s =? count c_close s)) ;;
  _ <- error_if (has_pair c_open c_close s) ;;
  let '(ndims, rest) := leading s in
  (* find_first_not_of gives npos, which integerConversion< int > rejects *)
  _ <- error_if (negb (nonempty rest)) ;;
  _ <- error_if (negb (ndims =? NDIM)) ;;
  q <- scan s (scan_start NDIM) ;;
  _ <- error_if (negb (q_level q =? -1)%Z) ;;
  a' <- resize_dims chk triv kind perm dflt a (map Z.of_nat (q_dims q)) ;;
  st <- read NDIM (toSlice perm a') (expand s, a_buf a') ;;
  Ok (mkArray (a_dims a') (a_strides a') (a_rix a') (snd st)).

(** output.hpp:48-66 operator<< of a slice (and of a value), and 86-88 of a view. *)
Fixpoint show (ndim : nat) (s : slice) (b : buf V) : outcome text :=
  match ndim with
  | O => i <- to_ix (s_off s) ;; v <- rd b i ;; Ok (print v)
  | S n =>
      match s_dims s with
      | [] => Fault FOob
      | d :: _ =>
          first <- (if 0 <? d then s0 <- slice_index chk s 0 ;; show n s0 b else Ok []) ;;
          body <- for_up (d - 1) (fun i out =>
                    s' <- slice_index chk s (Z.of_nat i) ;;
                    x <- show n s' b ;;
                    Ok (out ++ [c_comma; c_space] ++ x)) 1 ([c_open; c_space] ++ first) ;;
          Ok (body ++ [c_space; c_close])
      end
  end.
Definition show_array (a : array) : outcome text := show NDIM (toSlice perm a) (a_buf a).
End IO.

(** ** operator<< and operator>> of a signed integer type with values from lo to hi *)
Section Ints.
Local Open Scope Z_scope.
Definition digit_of (c : ascii) : option Z :=
  let n := Z.of_N (N_of_ascii c) in
  if ((48 <=? n) && (n <=? 57))%bool then Some (n - 48) else None.
Definition char_of (d : Z) : ascii := ascii_of_N (Z.to_N (d + 48)).
(** The digits of n >= 0, most significant first; [fuel] bounds their number. *)
Fixpoint digits (fuel : nat) (n : Z) : text :=
  match fuel with
  | O => []
  | S f => if n <? 10 then [char_of n] else digits f (n / 10) ++ [char_of (n mod 10)]
  end.
Definition digits_of (n : Z) : text := digits (S (Z.to_nat (Z.log2 n))) n.
Definition print_int (z : Z) : text :=
  if z <? 0 then "-"%char :: digits_of (- z) else digits_of z.
(** strtol style conversion: an optional sign and as many digits as there are. *)
Fixpoint read_digits (t : text) (acc : Z) : Z * text :=
  match t with
  | c :: t' => match digit_of c with Some d => read_digits t' (10 * acc + d) | None => (acc, t) end
  | [] => (acc, [])
  end.
Definition read_nat (t : text) : option (Z * text) :=
  match t with
  | c :: _ => match digit_of c with Some _ => Some (read_digits t 0) | None => None end
  | [] => None
  end.
(** A value outside the range of the type sets failbit. *)
Definition conv_int (lo hi : Z) (t : text) : option (Z * text) :=
  let r := match t with
           | c :: t' => if is c "-"%char
                        then match read_nat t' with Some (n, l) => Some (- n, l) | None => None end
                        else if is c "+"%char then read_nat t' else read_nat t
           | [] => None
           end in
  match r with
  | Some (n, l) => if ((lo <=? n) && (n <=? hi))%bool then Some (n, l) else None
  | None => None
  end.
End Ints.

(** ** operator>> of std::string: the whole word *)
Definition conv_string (t : text) : option (text * text) :=
  match t with [] => None | _ => Some (t, []) end.
