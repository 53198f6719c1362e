(** Properties C20 and C21: dualSort and the device branch of makeSorted. *)
From Coq Require Import List Arith ZArith Lia Bool Permutation.
From Verif Require Import Base Mem Sorted SortedSpec Introsort PropSorted.
From Verif Require BaseProofs MemProofs SortedProofs IntrosortProofs.
Import ListNotations.
Set Implicit Arguments.
Unset Strict Implicit.

Section Helpers.
Import MemProofs IntrosortProofs.
Lemma rb_stored A P triv (f : P -> A) (p : buf A) es s : RB triv f (map (@abs A) p) (map (@abs A) s) (stored p (map f es) s) (map Some es).
Proof. unfold RB. eapply mem_cast; [apply stored_mem|]. rewrite !map_map. reflexivity. Qed.
Lemma rb_buffer A P triv (f : P -> A) (p : buf A) es s b : RB triv f (map (@abs A) p) (map (@abs A) s) b (map Some es) ->
  is_buffer triv b (stored p (map f es) s).
Proof.
  intros M. apply mem_is_buffer. rewrite !map_app, abs_objs. eapply mem_cast; [exact M|]. rewrite !map_map. reflexivity.
Qed.
End Helpers.

(** C20: dualSort on values [map fst es] and data [map snd es], wherever they are stored. It returns the
    same pairs in an order in which the values are sorted, and changes nothing else. The only other
    possible outcome is that the array of ranges is too short, which needs more than slots + 62 elements
    (slots is 32 in the code). *)
Theorem C20_dualSort : forall V W (lt : V -> V -> bool) tv tw slots, strict_weak_order lt -> 2 <= slots ->
  forall (p s : buf V) (q u : buf W) (es : list (V * W)),
  (exists a b es', dualSort_with tv tw slots lt (stored p (map fst es) s) (length p)
                                               (stored q (map snd es) u) (length q) (length es) = Ok (a, b) /\
     is_buffer tv a (stored p (map fst es') s) /\ is_buffer tw b (stored q (map snd es') u) /\
     Permutation es es' /\ sorted lt (map fst es')) \/
  (slots + 62 < length es /\
   dualSort_with tv tw slots lt (stored p (map fst es) s) (length p) (stored q (map snd es) u) (length q) (length es) = Fault FOob).
Proof.
  intros V W lt tv tw slots S2 Hs p s q u es. unfold dualSort_with.
  pose proof (IntrosortProofs.dual_ok tv tw (map (@abs V) p) (map (@abs V) s) (map (@abs W) q) (map (@abs W) u)) as D.
  rewrite !map_length in D.
  destruct (IntrosortProofs.sort_ok D S2 (slots := slots) (s := (stored p (map fst es) s, stored q (map snd es) u)) (es := es) (n := length es) Hs)
    as [([a b] & E & es' & (Ma & Mb) & Pe & O)|[B E]]; auto.
  - split; apply rb_stored.
  - left. exists a, b, es'. split; [exact E|]. split; [apply rb_buffer; exact Ma|]. split; [apply rb_buffer; exact Mb|].
    split; auto. apply SortedProofs.sorted_strong. exact O.
Qed.
Print Assumptions C20_dualSort.

(** The same for makeSorted compiled for a device. *)
Theorem C20_makeSorted_device : forall V (lt : V -> V -> bool) tv slots, strict_weak_order lt -> 2 <= slots ->
  forall (p s : buf V) (l : list V),
  (exists b l', makeSorted_with tv slots lt (stored p l s) (length p) (length l) = Ok b /\
     is_buffer tv b (stored p l' s) /\ Permutation l l' /\ sorted lt l') \/
  (slots + 62 < length l /\ makeSorted_with tv slots lt (stored p l s) (length p) (length l) = Fault FOob).
Proof.
  intros V lt tv slots S2 Hs p s l. unfold makeSorted_with.
  pose proof (IntrosortProofs.plain_ok tv (map (@abs V) p) (map (@abs V) s)) as D. rewrite !map_length in D.
  pose proof (rb_stored tv (fun v : V => v) p l s) as M. rewrite map_id in M.
  destruct (IntrosortProofs.sort_ok D S2 Hs M eq_refl) as [(b & E & l' & Mb & Pe & O)|[B E]]; auto.
  left. exists b, l'. split; [exact E|]. split; [rewrite <- (map_id l'); apply rb_buffer; exact Mb|]. split; auto.
  apply SortedProofs.sorted_strong. rewrite map_id in O. exact O.
Qed.
Print Assumptions C20_makeSorted_device.
Example C20_case :
  dualSort false true Nat.ltb (stored [Raw] [5;3;9;3;1] []) 1 (stored [] [50;30;90;31;10] [Hollow]) 0 5 =
    Ok (stored [Raw] [1;3;3;5;9] [], stored [] [10;30;31;50;90] [Hollow]).
Proof. vm_compute. reflexivity. Qed.
Definition scrambled (n : nat) : list nat := map (fun i => (i * 37) mod 101) (seq 0 n).
Example C20_case_partition : (* more than 64 elements, so the partitioning loop runs *)
  makeSorted false Nat.ltb (stored [Raw] (scrambled 101) [Raw]) 1 101 = Ok (stored [Raw] (seq 0 101) [Raw]).
Proof. vm_compute. reflexivity. Qed.

(** C21: with the 32 entries of the code the stack of ranges suffices for 94 elements ... *)
Theorem C21_no_overflow : forall V W (lt : V -> V -> bool) tv tw, strict_weak_order lt ->
  forall (p s : buf V) (q u : buf W) (es : list (V * W)), length es <= 94 ->
  (exists r, dualSort tv tw lt (stored p (map fst es) s) (length p) (stored q (map snd es) u) (length q) (length es) = Ok r) /\
  exists r, makeSorted tv lt (stored p (map fst es) s) (length p) (length es) = Ok r.
Proof.
  intros V W lt tv tw S2 p s q u es L.
  split.
  - destruct (C20_dualSort tv tw (slots := MAX_RANGES + 1) S2 ltac:(unfold MAX_RANGES; lia) p s q u es) as [(a & b & es' & E & _)|[B _]].
    + exists (a, b). exact E.
    + unfold MAX_RANGES in B. lia.
  - destruct (C20_makeSorted_device tv (slots := MAX_RANGES + 1) S2 ltac:(unfold MAX_RANGES; lia) p s (map fst es)) as [(b & l' & E & _)|[B _]].
    + rewrite map_length in E. exists b. exact E.
    + rewrite map_length in B. unfold MAX_RANGES in B. lia.
Qed.
Print Assumptions C21_no_overflow.

(** ... but there is an input of 125 integers which writes past its end. *)
Definition killer : list nat :=
  flat_map (fun i => [60; 2 * i + 1]) (seq 0 30) ++ [60; 60] ++ map (fun i => 2 * i) (seq 0 30) ++ repeat 60 33.
Theorem C21_overflow : exists es : list (nat * nat), length es = 125 /\
  dualSort true true Nat.ltb (map (@Obj nat) (map fst es)) 0 (map (@Obj nat) (map snd es)) 0 125 = Fault FOob /\
  makeSorted true Nat.ltb (map (@Obj nat) (map fst es)) 0 125 = Fault FOob.
Proof. exists (map (fun k => (k, k)) killer). split; [reflexivity|]. split; vm_compute; reflexivity. Qed.
Print Assumptions C21_overflow.
Example C21_case : exists r, dualSort true true Nat.ltb (map (@Obj nat) (scrambled 94)) 0 (map (@Obj nat) (scrambled 94)) 0 94 = Ok r.
Proof. eexists. vm_compute. reflexivity. Qed.
