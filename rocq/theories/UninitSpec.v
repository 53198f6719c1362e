(** What is known of the values of an array resized without initialisation: None where nothing is. *)
From Coq Require Import List Arith ZArith.
From Verif Require Import Array ArraySpec GridSpec Uninit.
Import ListNotations.
Set Implicit Arguments.
Unset Strict Implicit.
Section Known.
Variable V : Type.
Variable perm : list nat.
(** All values of [g] are known. *)
Definition all_known (g : grid V) : grid (option V) := mkG (g_dims g) (g_rix g) (map Some (g_vals g)).
Definition ustep_spec (c : ucall V) (g : grid (option V)) : option (grid (option V)) :=
  match c with
  | UResize ds => if ((length ds =? length (g_dims g)) && forallb (fun d => 0 <=? d)%Z ds)%bool then Some (fitted None g (map Z.to_nat ds)) else None
  | USet idx v => if inside (g_dims g) idx then Some (written perm g (map Z.to_nat idx) (Some v)) else None
  end.
Fixpoint urun_spec (h : list (ucall V)) (g : grid (option V)) : option (grid (option V)) :=
  match h with [] => Some g | c :: h' => match ustep_spec c g with Some g' => urun_spec h' g' | None => None end end.
End Known.
