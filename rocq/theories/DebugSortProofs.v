(** In a debug build the sorting routines abort exactly where the release build writes past the array of ranges. *)
From Coq Require Import List Arith ZArith Lia Bool Permutation.
From Verif Require Import Base BaseProofs Mem MemProofs SortedSpec SortedProofs Debug Introsort IntrosortProofs DebugSort.
Import ListNotations.
Set Implicit Arguments.
Unset Strict Implicit.

Section Generic.
Variable V St T P : Type.
Variable lt : V -> V -> bool.
Variable I : iter V St T.
Variable key : P -> V.
Variable R : St -> list (option P) -> Prop.
Variable RT : T -> P -> Prop.
Hypothesis H : iter_ok I key R RT.
Hypothesis W : strict_weak_order lt.

(** the same result, or the overflow against the abort *)
Definition stops {A} (m d : outcome A) : Prop := (exists r, m = Ok r /\ d = Ok r) \/ (m = Fault FOob /\ d = Abort).

Lemma d_intro n mx : forall fuel s es ranges nR, R s (map Some es) -> n = length es ->
  stack_ok n (mx + 1) ranges nR -> 2 * nth nR ranges 0 - nR <= fuel ->
  stops (intro_loop lt I fuel ranges nR s) (d_intro_loop true lt I mx fuel ranges nR s).
Proof.
  induction fuel as [|fuel IH]; intros s es ranges nR M En (Ls & Ln & Lt & G) F.
  - assert (nR = 0) as -> by (pose proof (@stack_ge ranges nR G nR ltac:(lia)); destruct nR; lia).
    left. exists s. auto.
  - cbn [intro_loop d_intro_loop]. destruct (Nat.eqb_spec nR 0) as [->|N0]; [left; exists s; auto|].
    rewrite (@aget_nth _ ranges (nR - 1) 0), (@aget_nth _ ranges nR 0) by lia. cbn [bind].
    pose proof (G (nR - 1) ltac:(lia)) as G1. replace (S (nR - 1)) with nR in G1 by lia.
    pose proof (@stack_ge ranges nR G nR ltac:(lia)) as G3.
    unfold INTROSORT_THRESHOLD. destruct (Nat.ltb_spec 64 (nth nR ranges 0 - nth (nR - 1) ranges 0)) as [B|B].
    + unfold assert_. destruct (Nat.ltb_spec nR mx) as [C|C].
      2:{ right. unfold aset. destruct (Nat.ltb_spec (nR + 1) (length ranges)); [lia|]. auto. }
      cbn [negb check_if bind]. rewrite aset_ok by lia. cbn [bind].
      destruct (pivot_ok H W (lo := nth (nR - 1) ranges 0) (hi := nth nR ranges 0) M) as ([cut s1] & E1 & Hc & es1 & M1 & Pe); [lia|lia|].
      cbn [fst snd] in *. rewrite E1. cbn [bind]. rewrite aset_ok by len. cbn [bind].
      pose proof (Permutation_length Pe).
      apply (IH s1 es1 (upd (upd ranges (nR + 1) (nth nR ranges 0)) nR cut) (nR + 1)); auto.
      * congruence.
      * split; [len|]. split; [lia|]. split.
        -- rewrite nth_upd_ne by lia. rewrite nth_upd_eq by lia. lia.
        -- intros i Hi. destruct (Nat.eq_dec i nR) as [->|Ni].
           ++ rewrite nth_upd_eq by len. rewrite nth_upd_ne by lia. replace (S nR) with (nR + 1) by lia. rewrite nth_upd_eq by lia. lia.
           ++ destruct (Nat.eq_dec (S i) nR) as [Ei|Ni2].
              ** rewrite Ei. rewrite nth_upd_eq by len. rewrite !nth_upd_ne by lia. replace i with (nR - 1) by lia. lia.
              ** rewrite !nth_upd_ne by lia. apply G. lia.
      * rewrite nth_upd_ne by lia. rewrite nth_upd_eq by lia. lia.
    + apply (IH s es ranges (nR - 1)); auto.
      * split; [auto|]. split; [lia|]. split; [lia|]. intros i Hi. apply G. lia.
      * lia.
Qed.

Lemma d_sort mx s es n : 1 <= mx -> R s (map Some es) -> n = length es ->
  stops (sort_with lt I (mx + 1) n s) (d_sort_with true lt I mx n s).
Proof.
  intros Hs M En. destruct (sort_ok H W (slots := mx + 1) (s := s) (es := es) (n := n) ltac:(lia) M En) as [(r & E & _)|[_ E]].
  - unfold sort_with, d_sort_with, introsortLoop, d_introsortLoop, INTROSORT_THRESHOLD in *. destruct (Nat.ltb_spec 64 n); [|left; exists r; auto].
    rewrite !aset_ok in * by len. cbn [bind] in *. rewrite !aset_ok in * by len. cbn [bind] in *.
    destruct (@d_intro n mx (2 * n) s es (upd (upd (repeat 0 (mx + 1)) 0 0) 1 n) 1 M En) as [(s1 & E1 & E2)|[E1 E2]].
    + split; [len|]. split; [lia|]. split.
      * rewrite nth_upd_eq by len. lia.
      * intros i Hi. assert (i = 0) as -> by lia. rewrite nth_upd_ne by lia. rewrite nth_upd_eq by len. rewrite nth_upd_eq by len. lia.
    + rewrite nth_upd_eq by len. lia.
    + left. exists r. rewrite E1, E2. rewrite E1 in E. auto.
    + rewrite E1 in E. discriminate.
  - right. split; [exact E|]. unfold sort_with, d_sort_with, introsortLoop, d_introsortLoop, INTROSORT_THRESHOLD in *. destruct (Nat.ltb_spec 64 n).
    + rewrite !aset_ok in * by len. cbn [bind] in *. rewrite !aset_ok in * by len. cbn [bind] in *.
      destruct (@d_intro n mx (2 * n) s es (upd (upd (repeat 0 (mx + 1)) 0 0) 1 n) 1 M En) as [(s1 & E1 & E2)|[E1 E2]].
      * split; [len|]. split; [lia|]. split.
        -- rewrite nth_upd_eq by len. lia.
        -- intros i Hi. assert (i = 0) as -> by lia. rewrite nth_upd_ne by lia. rewrite nth_upd_eq by len. rewrite nth_upd_eq by len. lia.
      * rewrite nth_upd_eq by len. lia.
      * rewrite E1 in E. cbn [bind] in E. destruct (intro_ok H W (n := n) (slots := mx + 1) (fuel := 2 * n) (s := s) (es := es) (ranges := upd (upd (repeat 0 (mx + 1)) 0 0) 1 n) (nR := 1) M En) as [(s2 & E3 & es2 & M2 & Pe)|[_ E3]].
        -- split; [len|]. split; [lia|]. split.
           ++ rewrite nth_upd_eq by len. lia.
           ++ intros i Hi. assert (i = 0) as -> by lia. rewrite nth_upd_ne by lia. rewrite nth_upd_eq by len. rewrite nth_upd_eq by len. lia.
        -- rewrite nth_upd_eq by len. lia.
        -- rewrite E1 in E3. injection E3 as <-. pose proof (Permutation_length Pe).
           destruct (insertionSort_ok H W (s := s1) (es := es2) (n := n) M2 ltac:(congruence)) as (r & Er & _). congruence.
        -- congruence.
      * rewrite E2. reflexivity.
    + cbn [bind] in E. destruct (insertionSort_ok H W (s := s) (es := es) (n := n) M En) as (r & Er & _). congruence.
Qed.
End Generic.
