(** Specification vocabulary for array text: no reference to the model of the parser. *)
From Coq Require Import List Arith ZArith NArith Ascii Bool.
Import ListNotations.
Set Implicit Arguments.

Notation text := (list ascii).

(** The characters with a meaning of their own. *)
Definition special (c : ascii) : Prop := In c ["{"; "}"; ","; " "]%char.
(** White space other than ' '. *)
Definition other_white (c : ascii) : Prop := (9 <= N_of_ascii c <= 13)%N.
(** A token: a value as written in the text. *)
Definition token (t : text) : Prop := t <> [] /\ forall c, In c t -> ~ special c /\ ~ other_white c.

Fixpoint join (sep : text) (l : list text) : text :=
  match l with
  | [] => []
  | [x] => x
  | x :: l' => x ++ sep ++ join sep l'
  end.
(** The rectangular nest of braces with given extents: [tok idx] stands at position idx. [o], [m] and
    [c] open, separate and close. *)
Fixpoint nested (o m c : text) (dims : list nat) (tok : list Z -> text) : text :=
  match dims with
  | [] => tok []
  | d :: ds => o ++ join m (map (fun i => nested o m c ds (fun idx => tok (Z.of_nat i :: idx))) (seq 0 d)) ++ c
  end.
(** "{a,b,...}", and with spaces "{ a, b, ... }" *)
Definition compact (dims : list nat) (tok : list Z -> text) : text := nested ["{"]%char [","]%char ["}"]%char dims tok.
Definition spaced (dims : list nat) (tok : list Z -> text) : text :=
  nested ["{"; " "]%char [","; " "]%char [" "; "}"]%char dims tok.

(** The text without its spaces. *)
Fixpoint squeeze (s : text) : text :=
  match s with
  | [] => []
  | c :: s' => if Ascii.eqb c " "%char then squeeze s' else c :: squeeze s'
  end.
(** No two value characters are separated by spaces only. *)
Definition delimited (s : text) : Prop :=
  forall a x k y b, s = a ++ [x] ++ repeat " "%char (S k) ++ [y] ++ b -> special x \/ special y.
(** x directly followed by y *)
Definition adjacent (x y : ascii) (s : text) : Prop := exists a b, s = a ++ x :: y :: b.
(** Number of occurrences. *)
Definition occurs (x : ascii) (s : text) : nat := count_occ ascii_dec s x.
(** Somewhere more than n braces are open. *)
Definition too_deep (n : nat) (s : text) : Prop :=
  exists p r, s = p ++ r /\ n + occurs "}"%char p < occurs "{"%char p.

Section Conv.
Variable V : Type.
Variable conv : text -> option (V * text).
(** Extraction takes at least one character off the front of the word, ... *)
Definition takes_prefix : Prop := forall w v w', conv w = Some (v, w') -> exists u, u <> [] /\ w = u ++ w'.
(** ... or always the whole word, ... *)
Definition takes_word : Prop := forall w v w', conv w = Some (v, w') -> w <> [] /\ w' = [].
(** ... and never starts with a closing brace. *)
Definition rejects_brace : Prop := forall w, conv ("}"%char :: w) = None.
End Conv.
