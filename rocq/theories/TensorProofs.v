(** The loops of the generic tensor operations write, at each destination entry, one value. *)
From Coq Require Import List Arith Bool Lia.
From Verif Require Import Base BaseProofs Tensor TensorSpec.
Import ListNotations.
Set Implicit Arguments.

Section Proofs.
Variable T : Type.
Variable ar : arith T.
Variable chk : bool.
Notation memory := (list (option T)).
Implicit Types h : memory.

Lemma load_ok h a v : nth_error h a = Some (Some v) -> load a h = Ok v.
Proof. intros E. unfold load, aget. rewrite E. reflexivity. Qed.
Lemma bin_ok f (x y : expr T) h a b : x h = Ok a -> y h = Ok b -> bin f x y h = Ok (f a b).
Proof. intros E F. unfold bin. rewrite E. cbn. rewrite F. reflexivity. Qed.
Lemma lit_ok (v : T) h : lit v h = Ok v.
Proof. reflexivity. Qed.
Lemma assign_ok a (e : expr T) h v : e h = Ok v -> a < length h -> assign_at a e h = Ok (upd h a (Some v)).
Proof. intros E L. unfold assign_at. rewrite E. cbn. now apply aset_ok. Qed.
Lemma slot_lt h a v : nth_error h a = Some v -> a < length h.
Proof. intros E. apply nth_error_Some. congruence. Qed.

Lemma check1_ok n v : vlen v = n -> check1 chk n v = Ok tt.
Proof. intros <-. unfold check1. apply check_if_ok. now rewrite Nat.eqb_refl. Qed.
Lemma check2_ok n m a : mrows a = n /\ mcols a = m -> check2 chk n m a = Ok tt.
Proof. intros [<- <-]. unfold check2. rewrite !Nat.eqb_refl, !check_if_ok; auto. Qed.

Lemma upd_upd h a v w : upd (upd h a v) a w = upd h a w.
Proof. revert a. induction h as [| c h IH]; intros [| a]; cbn; auto. now rewrite IH. Qed.

(** [d <~ d + ...] in a loop. *)
Lemma accumulate_ok n : forall s d (F : nat -> expr T) x r h,
  nth_error h d = Some (Some r) ->
  (forall k h', s <= k < s + n -> length h' = length h -> (forall a, a <> d -> nth_error h' a = nth_error h a) -> F k h' = Ok (x k)) ->
  loop s n (fun k => assign_at d (bin (add ar) (load d) (F k))) h = Ok (upd h d (Some (fold_left (add ar) (map x (seq s n)) r))).
Proof.
  unfold loop. induction n as [| n IH]; intros s d F x r h E HF.
  - cbn. f_equal. clear HF. revert d E. induction h as [| c h IH]; intros [| d] E; cbn in *; try discriminate.
    + congruence.
    + f_equal. now apply IH.
  - pose proof (slot_lt _ _ E) as L. cbn [for_up].
    rewrite (@assign_ok d _ h (add ar r (x s))); auto.
    2:{ apply bin_ok; [now apply load_ok | apply HF; auto; lia]. }
    cbn [bind]. replace (S s) with (s + 1) by lia. rewrite IH with (x := x) (r := add ar r (x s)).
    + rewrite upd_upd. cbn. replace (s + 1) with (S s) by lia. reflexivity.
    + now apply nth_error_upd_eq.
    + intros k h' Hk L' A. apply HF; [lia | now rewrite L', upd_length |].
      intros a Ha. rewrite A by auto. now apply nth_error_upd_ne; auto.
Qed.

(** A loop that writes each entry of a vector once. *)
Lemma each1 n (c : nat -> command T) D v h0 :
  (forall i, i < n -> D i < length h0) ->
  (forall i j, i < n -> j < n -> D i = D j -> i = j) ->
  (forall i h, i < n -> length h = length h0 ->
     (forall a, (forall i', i' < n -> i' <> i -> D i' <> a) -> nth_error h a = nth_error h0 a) ->
     c i h = Ok (upd h (D i) (Some (v i)))) ->
  oks (loop 0 n c h0) (fun h => length h = length h0 /\
    (forall i, i < n -> nth_error h (D i) = Some (Some (v i))) /\
    forall a, (forall i, i < n -> D i <> a) -> nth_error h a = nth_error h0 a).
Proof.
  intros R J B. unfold loop.
  eapply oks_mono.
  - apply (@oks_for_up memory (fun i h => length h = length h0 /\
      (forall i', i' < i -> nth_error h (D i') = Some (Some (v i'))) /\
      forall a, (forall i', i' < i -> D i' <> a) -> nth_error h a = nth_error h0 a)).
    + repeat split; auto; intros; lia.
    + intros i h Hi (L & V & A). exists (upd h (D i) (Some (v i))). split.
      { apply B; [lia | auto |]. intros a Ha. apply A. intros i' Hi'. apply Ha; lia. }
      split; [now rewrite upd_length | split].
      * intros i' Hi'. destruct (Nat.eq_dec i' i) as [-> | Ne].
        { apply nth_error_upd_eq. rewrite L. apply R. lia. }
        rewrite nth_error_upd_ne. apply V; lia. intros E. apply Ne. symmetry. apply J; auto; lia.
      * intros a Ha. rewrite nth_error_upd_ne. apply A. intros i' Hi'. apply Ha; lia. apply Ha; lia.
  - cbn. auto.
Qed.

(** The same for the entries of a matrix. *)
Lemma each2 n m (c : nat -> nat -> command T) D v h0 :
  (forall i j, i < n -> j < m -> D i j < length h0) ->
  (forall i j k l, i < n -> j < m -> k < n -> l < m -> D i j = D k l -> i = k /\ j = l) ->
  (forall i j h, i < n -> j < m -> length h = length h0 ->
     (forall a, (forall k l, k < n -> l < m -> (k, l) <> (i, j) -> D k l <> a) -> nth_error h a = nth_error h0 a) ->
     c i j h = Ok (upd h (D i j) (Some (v i j)))) ->
  oks (loop 0 n (fun i => loop 0 m (fun j => c i j)) h0) (fun h => length h = length h0 /\
    (forall i j, i < n -> j < m -> nth_error h (D i j) = Some (Some (v i j))) /\
    forall a, (forall i j, i < n -> j < m -> D i j <> a) -> nth_error h a = nth_error h0 a).
Proof.
  intros R J B. unfold loop.
  set (inv := fun i j h => length h = length h0 /\
      (forall k l, k < n -> l < m -> k < i \/ (k = i /\ l < j) -> nth_error h (D k l) = Some (Some (v k l))) /\
      forall a, (forall k l, k < n -> l < m -> k < i \/ (k = i /\ l < j) -> D k l <> a) -> nth_error h a = nth_error h0 a).
  eapply oks_mono.
  - apply (@oks_for_up memory (fun i h => inv i 0 h)).
    + repeat split; auto; intros; lia.
    + intros i h Hi H. eapply oks_mono.
      * apply (@oks_for_up memory (fun j h => inv i j h)); [exact H |].
        intros j h1 Hj (L & V & A). exists (upd h1 (D i j) (Some (v i j))). split.
        { apply B; [lia | lia | auto |]. intros a Ha. apply A. intros k l Hk Hl Hlt. apply Ha; auto.
          intros E; injection E; intros; lia. }
        split; [now rewrite upd_length | split].
        -- intros k l Hk Hl Hlt. destruct (Nat.eq_dec k i) as [-> | Nk]; [destruct (Nat.eq_dec l j) as [-> | Nl] |].
           ++ apply nth_error_upd_eq. rewrite L. apply R; lia.
           ++ rewrite nth_error_upd_ne. apply V; auto; lia. intros E. apply J in E; lia.
           ++ rewrite nth_error_upd_ne. apply V; auto; lia. intros E. apply J in E; lia.
        -- intros a Ha. rewrite nth_error_upd_ne. apply A. intros k l Hk Hl Hlt. apply Ha; lia. apply Ha; lia.
      * cbn. intros h1 (L & V & A). split; [auto | split].
        -- intros k l Hk Hl Hlt. apply V; lia.
        -- intros a Ha. apply A. intros k l Hk Hl Hlt. apply Ha; lia.
  - cbn. intros h (L & V & A). split; [auto | split].
    + intros i j Hi Hj. apply V; lia.
    + intros a Ha. apply A. intros k l Hk Hl Hlt. apply Ha; lia.
Qed.

(** The body of a loop over the entries of a destination sees the sources and the entry itself as they were. *)
Definition vseen h D n i h' := i < n /\ length h' = length h /\
  forall a, (forall i', i' < n -> i' <> i -> vat D i' <> a) -> nth_error h' a = nth_error h a.
Definition mseen h D n m i j h' := (i < n /\ j < m) /\ length h' = length h /\
  forall a, (forall k l, k < n -> l < m -> (k, l) <> (i, j) -> mat D k l <> a) -> nth_error h' a = nth_error h a.

Lemma vop n D c (v : nat -> T) h : vdst h D n ->
  (forall i h', vseen h D n i h' -> c i h' = Ok (upd h' (vat D i) (Some (v i)))) ->
  oks (loop 0 n c h) (fun h' => vec h' D n v /\ only (vslots D n) h h').
Proof.
  intros (L & R & J) B. eapply oks_mono.
  - apply each1 with (D := vat D) (v := v); auto. intros i h' Hi Hl A. apply B. split; [|split]; auto.
  - cbn. intros h' (L' & V & A). split; split; auto. intros s Ns. apply A. intros i Hi E. apply Ns. exists i. auto.
Qed.
Lemma mop n m D c (v : nat -> nat -> T) h : mdst h D n m ->
  (forall i j h', mseen h D n m i j h' -> c i j h' = Ok (upd h' (mat D i j) (Some (v i j)))) ->
  oks (loop 0 n (fun i => loop 0 m (fun j => c i j)) h) (fun h' => mtx h' D n m v /\ only (mslots D n m) h h').
Proof.
  intros (L & R & J) B. eapply oks_mono.
  - apply each2 with (D := mat D) (v := v); auto. intros i j h' Hi Hj Hl A. apply B. split; [|split]; auto.
  - cbn. intros h' (L' & V & A). split; split; auto. intros s Ns. apply A. intros i j Hi Hj E. apply Ns. exists i, j. auto.
Qed.

(** Sources that share no slot with the destination keep their contents while it is written. *)
Lemma only_vec P h h' A n x : only P h h' -> apart P (vslots A n) -> vec h A n x -> vec h' A n x.
Proof.
  intros (_ & O) D (L & V). split; [auto |]. intros i Hi. rewrite O; auto. intros Hp. apply (D _ Hp). exists i; auto.
Qed.
Lemma only_mtx P h h' A n m x : only P h h' -> apart P (mslots A n m) -> mtx h A n m x -> mtx h' A n m x.
Proof.
  intros (_ & O) D (L & V). split; [auto |]. intros i j Hi Hj. rewrite O; auto. intros Hp. apply (D _ Hp). exists i, j; auto.
Qed.
Lemma only_refl P h : only P h h.
Proof. split; auto. Qed.
Lemma only_trans P h h1 h2 : only P h h1 -> only P h1 h2 -> only P h h2.
Proof. intros (L1 & A1) (L2 & A2). split; [congruence |]. intros s N. rewrite A2, A1; auto. Qed.
Lemma only_more (P Q : nat -> Prop) h h' : only P h h' -> (forall s, P s -> Q s) -> only Q h h'.
Proof. intros (L & A) I. split; auto. Qed.
Lemma only_upd (P : nat -> Prop) h h' a v : only P h h' -> P a -> only P h (upd h' a v).
Proof.
  intros (L & A) Pa. split; [now rewrite upd_length |]. intros s N.
  destruct (Nat.eq_dec a s) as [-> | Ne]; [contradiction |]. rewrite nth_error_upd_ne; auto.
Qed.

Lemma vseen_only h D n i h' : vseen h D n i h' -> only (vslots D n) h h'.
Proof. intros (Hi & L & S). split; auto. intros s N. apply S. intros i' Hi' _ E. apply N. exists i'. auto. Qed.
Lemma mseen_only h D n m i j h' : mseen h D n m i j h' -> only (mslots D n m) h h'.
Proof. intros (Hi & L & S). split; auto. intros s N. apply S. intros k l Hk Hl _ E. apply N. exists k, l. auto. Qed.
Lemma vseen_self h D n i h' x : vseen h D n i h' -> vdst h D n -> vec h D n x -> nth_error h' (vat D i) = Some (Some (x i)).
Proof.
  intros (Hi & _ & S) (_ & _ & J) (_ & V). rewrite S by (intros i' Hi' Ne E; apply J in E; auto). auto.
Qed.
Lemma vseen_lt h D n i h' : vseen h D n i h' -> vdst h D n -> vat D i < length h'.
Proof. intros (Hi & L & S) (_ & R & J). rewrite L. auto. Qed.
Lemma mseen_self h D n m i j h' x : mseen h D n m i j h' -> mdst h D n m -> mtx h D n m x -> nth_error h' (mat D i j) = Some (Some (x i j)).
Proof.
  intros ((Hi & Hj) & _ & S) (_ & _ & J) (_ & V). rewrite S by (intros k l Hk Hl Ne E; apply J in E; auto; destruct E; subst; auto). auto.
Qed.
Lemma mseen_lt h D n m i j h' : mseen h D n m i j h' -> mdst h D n m -> mat D i j < length h'.
Proof. intros ((Hi & Hj) & L & S) (_ & R & J). rewrite L. auto. Qed.

(** An entry computed as a sum, from its first summand or onto its old value. *)
Lemma sum_ok (P : nat -> Prop) h p d (F : nat -> expr T) x : P d -> d < length h -> 0 < p ->
  (forall k h', k < p -> only P h h' -> F k h' = Ok (x k)) ->
  (andthen (assign_at d (F 0)) (loop 1 (p - 1) (fun k => assign_at d (bin (add ar) (load d) (F k))))) h =
  Ok (upd h d (Some (sum ar p x))).
Proof.
  intros Pd L Hp HF. unfold andthen. rewrite (@assign_ok d _ h (x 0)); auto using only_refl.
  cbn [bind]. rewrite accumulate_ok with (x := x) (r := x 0).
  - rewrite upd_upd. do 3 f_equal. unfold sum, total. destruct p as [| p]; [lia |]. cbn [seq map].
    now replace (S p - 1) with p by lia.
  - now apply nth_error_upd_eq.
  - intros k h' Hk L' A. apply HF; [lia |]. split; [now rewrite L', upd_length |].
    intros s N. rewrite A by congruence. apply nth_error_upd_ne. congruence.
Qed.
Lemma sum_onto_ok (P : nat -> Prop) h p d (F : nat -> expr T) x r : P d -> nth_error h d = Some (Some r) ->
  (forall k h', k < p -> only P h h' -> F k h' = Ok (x k)) ->
  loop 0 p (fun k => assign_at d (bin (add ar) (load d) (F k))) h = Ok (upd h d (Some (sum_onto ar r p x))).
Proof.
  intros Pd E HF. rewrite accumulate_ok with (x := x) (r := r); auto.
  intros k h' Hk L' A. apply HF; [lia |]. split; [auto |]. intros s N. apply A. congruence.
Qed.

Lemma vec_at h A n x i : vec h A n x -> i < n -> vx A i h = Ok (x i).
Proof. intros (_ & V) Hi. apply load_ok; auto. Qed.
Lemma mtx_at h A n m x i j : mtx h A n m x -> i < n -> j < m -> mx A i j h = Ok (x i j).
Proof. intros (_ & V) Hi Hj. apply load_ok; auto. Qed.

(** * Generic operations *)
Local Notation wrote_v h D n v r := (oks r (fun h' => vec h' D n v /\ only (vslots D n) h h')).
Local Notation wrote_m h D n m v r := (oks r (fun h' => mtx h' D n m v /\ only (mslots D n m) h h')).

Ltac checks := repeat first
  [ rewrite check1_ok by (match goal with H : vec _ ?A _ _ |- vlen ?A = _ => exact (proj1 H) | H : vdst _ ?A _ |- vlen ?A = _ => exact (proj1 H) end); cbn [bind]
  | rewrite check2_ok by (match goal with H : mtx _ ?A _ _ _ |- mrows ?A = _ /\ _ => exact (proj1 H) | H : mdst _ ?A _ _ |- mrows ?A = _ /\ _ => exact (proj1 H) end); cbn [bind] ].
(** Solve [expression h = Ok ?v] by its syntax, reading operands through the [only] that is in the context. *)
Ltac reads := repeat first
  [ eapply bin_ok | apply lit_ok
  | match goal with H : nth_error ?h ?a = Some (Some _) |- load ?a ?h = _ => apply load_ok; exact H end
  | match goal with H : nth_error ?h (vat ?A ?i) = Some (Some _) |- vx ?A ?i ?h = _ => apply load_ok; exact H end
  | match goal with H : nth_error ?h (mat ?A ?i ?j) = Some (Some _) |- mx ?A ?i ?j ?h = _ => apply load_ok; exact H end
  | match goal with V : vec _ ?A _ _, O : only ?P _ ?h |- vx ?A _ ?h = _ => eapply vec_at; [eapply only_vec; [exact O | | exact V]; assumption | lia] end
  | match goal with V : mtx _ ?A _ _ _, O : only ?P _ ?h |- mx ?A _ _ ?h = _ => eapply mtx_at; [eapply only_mtx; [exact O | | exact V]; assumption | lia | lia] end ].
Ltac vloop := checks; apply vop; [assumption |];
  let i := fresh "i" in let h1 := fresh "h" in let S := fresh "Seen" in
  intros i h1 S; pose proof (vseen_only S); pose proof (vseen_lt S ltac:(eassumption)); pose proof (proj1 S);
  try (let F := fresh "Own" in pose proof (vseen_self S ltac:(eassumption) ltac:(eassumption)) as F).
Ltac mloop := checks; apply mop; [assumption |];
  let i := fresh "i" in let j := fresh "j" in let h1 := fresh "h" in let S := fresh "Seen" in
  intros i j h1 S; pose proof (mseen_only S); pose proof (mseen_lt S ltac:(eassumption)); pose proof (proj1 S) as [? ?];
  try (let F := fresh "Own" in pose proof (mseen_self S ltac:(eassumption) ltac:(eassumption)) as F).
Ltac entry := first [vloop | mloop]; apply assign_ok; [reads | assumption].

Lemma fill_ok h n D s : vdst h D n -> wrote_v h D n (fun _ => s) (fill chk n D s h).
Proof. intros. unfold fill. entry. Qed.
Lemma fillM_ok h n m D s : mdst h D n m -> wrote_m h D n m (fun _ _ => s) (fillM chk n m D s h).
Proof. intros. unfold fillM. entry. Qed.
Lemma copy_ok h n D A x : vdst h D n -> vec h A n x -> apart (vslots D n) (vslots A n) -> wrote_v h D n x (copy chk n D A h).
Proof. intros. unfold copy. entry. Qed.
Lemma copyM_ok h n m D A x : mdst h D n m -> mtx h A n m x -> apart (mslots D n m) (mslots A n m) ->
  wrote_m h D n m x (copyM chk n m D A h).
Proof. intros. unfold copyM. entry. Qed.
Lemma scale_ok h n D x s : vdst h D n -> vec h D n x -> wrote_v h D n (fun i => mul ar (x i) s) (scale ar chk n D s h).
Proof. intros. unfold scale. entry. Qed.
Lemma scaleM_ok h n m D x s : mdst h D n m -> mtx h D n m x -> wrote_m h D n m (fun i j => mul ar (x i j) s) (scaleM ar chk n m D s h).
Proof. intros. unfold scaleM. entry. Qed.
Lemma scaledCopy_ok h n D A x s : vdst h D n -> vec h A n x -> apart (vslots D n) (vslots A n) ->
  wrote_v h D n (fun i => mul ar s (x i)) (scaledCopy ar chk n D A s h).
Proof. intros. unfold scaledCopy. entry. Qed.
Lemma scaledCopyM_ok h n m D A x s : mdst h D n m -> mtx h A n m x -> apart (mslots D n m) (mslots A n m) ->
  wrote_m h D n m (fun i j => mul ar s (x i j)) (scaledCopyM ar chk n m D A s h).
Proof. intros. unfold scaledCopyM. entry. Qed.
Lemma addScalar_ok h n D x s : vdst h D n -> vec h D n x -> wrote_v h D n (fun i => add ar (x i) s) (addScalar ar chk n D s h).
Proof. intros. unfold addScalar. entry. Qed.
Lemma addV_ok h n D r A x : vdst h D n -> vec h D n r -> vec h A n x -> apart (vslots D n) (vslots A n) ->
  wrote_v h D n (fun i => add ar (r i) (x i)) (addV ar chk n D A h).
Proof. intros ? Hr. intros. unfold addV. entry. Qed.
Lemma addM_ok h n m D r A x : mdst h D n m -> mtx h D n m r -> mtx h A n m x -> apart (mslots D n m) (mslots A n m) ->
  wrote_m h D n m (fun i j => add ar (r i j) (x i j)) (addM ar chk n m D A h).
Proof. intros. unfold addM. entry. Qed.
Lemma subtract_ok h n D r A x : vdst h D n -> vec h D n r -> vec h A n x -> apart (vslots D n) (vslots A n) ->
  wrote_v h D n (fun i => sub ar (r i) (x i)) (subtract ar chk n D A h).
Proof. intros. unfold subtract. entry. Qed.
Lemma scaledAdd_ok h n D r A x s : vdst h D n -> vec h D n r -> vec h A n x -> apart (vslots D n) (vslots A n) ->
  wrote_v h D n (fun i => add ar (r i) (mul ar s (x i))) (scaledAdd ar chk n D A s h).
Proof. intros. unfold scaledAdd. entry. Qed.
Lemma scaledAddM_ok h n m D r A x s : mdst h D n m -> mtx h D n m r -> mtx h A n m x -> apart (mslots D n m) (mslots A n m) ->
  wrote_m h D n m (fun i j => add ar (r i j) (mul ar s (x i j))) (scaledAddM ar chk n m D A s h).
Proof. intros. unfold scaledAddM. entry. Qed.
Lemma hadamardProduct_ok h n D A x B y : vdst h D n -> vec h A n x -> vec h B n y ->
  apart (vslots D n) (vslots A n) -> apart (vslots D n) (vslots B n) ->
  wrote_v h D n (fun i => mul ar (x i) (y i)) (hadamardProduct ar chk n D A B h).
Proof. intros. unfold hadamardProduct. entry. Qed.

Lemma Rij_eq_AiBj_ok h n m D A x B y : mdst h D n m -> vec h A n x -> vec h B m y ->
  apart (mslots D n m) (vslots A n) -> apart (mslots D n m) (vslots B m) ->
  wrote_m h D n m (fun i j => mul ar (x i) (y j)) (Rij_eq_AiBj ar chk n m D A B h).
Proof. intros. unfold Rij_eq_AiBj. entry. Qed.
Lemma Rij_add_AiBj_ok h n m D r A x B y : mdst h D n m -> mtx h D n m r -> vec h A n x -> vec h B m y ->
  apart (mslots D n m) (vslots A n) -> apart (mslots D n m) (vslots B m) ->
  wrote_m h D n m (fun i j => add ar (r i j) (mul ar (x i) (y j))) (Rij_add_AiBj ar chk n m D A B h).
Proof. intros. unfold Rij_add_AiBj. entry. Qed.

Ltac summed body value := match goal with O : only ?Q ?h ?h1 |- _ ?h1 = Ok _ => first
  [ apply sum_ok with (P := Q) (F := body) (x := value)
  | apply sum_onto_ok with (P := Q) (F := body) (x := value) ];
  [ .. | intros ? ? ? ?; match goal with O1 : only Q h1 ?h2 |- _ => pose proof (only_trans O O1); clear O O1 end; reads ] end;
  first [assumption | now repeat eexists | lia].

Lemma Ri_eq_AijBj_ok h n m D A x B y : 0 < m -> vdst h D n -> mtx h A n m x -> vec h B m y ->
  apart (vslots D n) (mslots A n m) -> apart (vslots D n) (vslots B m) ->
  wrote_v h D n (fun i => sum ar m (fun j => mul ar (x i j) (y j))) (Ri_eq_AijBj ar chk n m D A B h).
Proof.
  intros. unfold Ri_eq_AijBj. vloop.
  summed (fun j => bin (mul ar) (mx A i j) (vx B j)) (fun j => mul ar (x i j) (y j)).
Qed.
Lemma Ri_add_AijBj_ok h n m D r A x B y : vdst h D n -> vec h D n r -> mtx h A n m x -> vec h B m y ->
  apart (vslots D n) (mslots A n m) -> apart (vslots D n) (vslots B m) ->
  wrote_v h D n (fun i => sum_onto ar (r i) m (fun j => mul ar (x i j) (y j))) (Ri_add_AijBj ar chk n m D A B h).
Proof.
  intros. unfold Ri_add_AijBj. vloop.
  summed (fun j => bin (mul ar) (mx A i j) (vx B j)) (fun j => mul ar (x i j) (y j)).
Qed.
Lemma Ri_eq_AjiBj_ok h n m D A x B y : 0 < m -> vdst h D n -> mtx h A m n x -> vec h B m y ->
  apart (vslots D n) (mslots A m n) -> apart (vslots D n) (vslots B m) ->
  wrote_v h D n (fun i => sum ar m (fun j => mul ar (x j i) (y j))) (Ri_eq_AjiBj ar chk n m D A B h).
Proof.
  intros. unfold Ri_eq_AjiBj. vloop.
  summed (fun j => bin (mul ar) (mx A j i) (vx B j)) (fun j => mul ar (x j i) (y j)).
Qed.
Lemma Ri_add_AjiBj_ok h n m D r A x B y : vdst h D n -> vec h D n r -> mtx h A m n x -> vec h B m y ->
  apart (vslots D n) (mslots A m n) -> apart (vslots D n) (vslots B m) ->
  wrote_v h D n (fun i => sum_onto ar (r i) m (fun j => mul ar (x j i) (y j))) (Ri_add_AjiBj ar chk n m D A B h).
Proof.
  intros. unfold Ri_add_AjiBj. vloop.
  summed (fun j => bin (mul ar) (mx A j i) (vx B j)) (fun j => mul ar (x j i) (y j)).
Qed.

Lemma Rij_eq_AikBkj_ok h n m p D A x B y : 0 < p -> mdst h D n m -> mtx h A n p x -> mtx h B p m y ->
  apart (mslots D n m) (mslots A n p) -> apart (mslots D n m) (mslots B p m) ->
  wrote_m h D n m (fun i j => sum ar p (fun k => mul ar (x i k) (y k j))) (Rij_eq_AikBkj ar chk n m p D A B h).
Proof.
  intros. unfold Rij_eq_AikBkj. mloop.
  summed (fun k => bin (mul ar) (mx A i k) (mx B k j)) (fun k => mul ar (x i k) (y k j)).
Qed.
Lemma Rij_add_AikBkj_ok h n m p D r A x B y : mdst h D n m -> mtx h D n m r -> mtx h A n p x -> mtx h B p m y ->
  apart (mslots D n m) (mslots A n p) -> apart (mslots D n m) (mslots B p m) ->
  wrote_m h D n m (fun i j => sum_onto ar (r i j) p (fun k => mul ar (x i k) (y k j))) (Rij_add_AikBkj ar chk n m p D A B h).
Proof.
  intros. unfold Rij_add_AikBkj. mloop.
  summed (fun k => bin (mul ar) (mx A i k) (mx B k j)) (fun k => mul ar (x i k) (y k j)).
Qed.
Lemma Rij_eq_AikBjk_ok h n m p D A x B y : 0 < p -> mdst h D n m -> mtx h A n p x -> mtx h B m p y ->
  apart (mslots D n m) (mslots A n p) -> apart (mslots D n m) (mslots B m p) ->
  wrote_m h D n m (fun i j => sum ar p (fun k => mul ar (x i k) (y j k))) (Rij_eq_AikBjk ar chk n m p D A B h).
Proof.
  intros. unfold Rij_eq_AikBjk. mloop.
  summed (fun k => bin (mul ar) (mx A i k) (mx B j k)) (fun k => mul ar (x i k) (y j k)).
Qed.
Lemma Rij_add_AikBjk_ok h n m p D r A x B y : mdst h D n m -> mtx h D n m r -> mtx h A n p x -> mtx h B m p y ->
  apart (mslots D n m) (mslots A n p) -> apart (mslots D n m) (mslots B m p) ->
  wrote_m h D n m (fun i j => sum_onto ar (r i j) p (fun k => mul ar (x i k) (y j k))) (Rij_add_AikBjk ar chk n m p D A B h).
Proof.
  intros. unfold Rij_add_AikBjk. mloop.
  summed (fun k => bin (mul ar) (mx A i k) (mx B j k)) (fun k => mul ar (x i k) (y j k)).
Qed.
Lemma Rij_add_AikAjk_ok h n m D r A x : mdst h D n n -> mtx h D n n r -> mtx h A n m x ->
  apart (mslots D n n) (mslots A n m) ->
  wrote_m h D n n (fun i j => sum_onto ar (r i j) m (fun k => mul ar (x i k) (x j k))) (Rij_add_AikAjk ar chk n m D A h).
Proof.
  intros. unfold Rij_add_AikAjk. mloop.
  summed (fun k => bin (mul ar) (mx A i k) (mx A j k)) (fun k => mul ar (x i k) (x j k)).
Qed.
Lemma Rij_eq_AkiBkj_ok h n m p D A x B y : 0 < p -> mdst h D n m -> mtx h A p n x -> mtx h B p m y ->
  apart (mslots D n m) (mslots A p n) -> apart (mslots D n m) (mslots B p m) ->
  wrote_m h D n m (fun i j => sum ar p (fun k => mul ar (x k i) (y k j))) (Rij_eq_AkiBkj ar chk n m p D A B h).
Proof.
  intros. unfold Rij_eq_AkiBkj. mloop.
  summed (fun k => bin (mul ar) (mx A k i) (mx B k j)) (fun k => mul ar (x k i) (y k j)).
Qed.
Lemma Rij_eq_AkiAkj_ok h n m D A x : 0 < m -> mdst h D n n -> mtx h A m n x ->
  apart (mslots D n n) (mslots A m n) ->
  wrote_m h D n n (fun i j => sum ar m (fun k => mul ar (x k i) (x k j))) (Rij_eq_AkiAkj ar chk n m D A h).
Proof.
  intros. unfold Rij_eq_AkiAkj. mloop.
  summed (fun k => bin (mul ar) (mx A k i) (mx A k j)) (fun k => mul ar (x k i) (x k j)).
Qed.
Lemma Rij_add_AkiBkj_ok h n m p D r A x B y : mdst h D n m -> mtx h D n m r -> mtx h A p n x -> mtx h B p m y ->
  apart (mslots D n m) (mslots A p n) -> apart (mslots D n m) (mslots B p m) ->
  wrote_m h D n m (fun i j => sum_onto ar (r i j) p (fun k => mul ar (x k i) (y k j))) (Rij_add_AkiBkj ar chk n m p D A B h).
Proof.
  intros. unfold Rij_add_AkiBkj. mloop.
  summed (fun k => bin (mul ar) (mx A k i) (mx B k j)) (fun k => mul ar (x k i) (y k j)).
Qed.

(** * Results that are values *)
Lemma fold_ok {A} n : forall s (F : nat -> A -> outcome A) (f : A -> T -> A) x r,
  (forall k t, s <= k < s + n -> F k t = Ok (f t (x k))) -> for_up n F s r = Ok (fold_left f (map x (seq s n)) r).
Proof.
  induction n as [| n IH]; intros s F f x r HF; cbn [for_up seq map fold_left]; [reflexivity |].
  rewrite HF by lia. cbn [bind]. replace (S s) with (s + 1) by lia. apply IH. intros k t Hk. apply HF. lia.
Qed.
Lemma sum_value (F : nat -> T -> outcome T) (x : nat -> T) n : 0 < n ->
  (forall k t, k < n -> F k t = Ok (add ar t (x k))) -> for_up (n - 1) F 1 (x 0) = Ok (sum ar n x).
Proof.
  intros Hn HF. rewrite fold_ok with (f := add ar) (x := x) by (intros; apply HF; lia).
  unfold sum, total. destruct n as [| n]; [lia |]. cbn [seq map]. now replace (S n - 1) with n by lia.
Qed.

Lemma l2NormSquared_ok h n A x : 0 < n -> vec h A n x -> l2NormSquared ar chk n A h = Ok (sum ar n (fun i => mul ar (x i) (x i))).
Proof.
  intros Hn V. unfold l2NormSquared. checks. erewrite bin_ok by (eapply vec_at; eauto). cbn [bind].
  apply (@sum_value _ (fun i => mul ar (x i) (x i))); auto. intros k t Hk.
  apply bin_ok; [apply lit_ok | apply bin_ok; eapply vec_at; eauto].
Qed.
Lemma l2Norm_ok sqrt h n A x : 0 < n -> vec h A n x -> l2Norm ar chk sqrt n A h = Ok (sqrt (sum ar n (fun i => mul ar (x i) (x i)))).
Proof. intros Hn V. unfold l2Norm. checks. erewrite l2NormSquared_ok by eauto. reflexivity. Qed.
Lemma AiBi_ok h n A x B y : 0 < n -> vec h A n x -> vec h B n y -> AiBi ar chk n A B h = Ok (sum ar n (fun i => mul ar (x i) (y i))).
Proof.
  intros Hn V W. unfold AiBi. checks. erewrite bin_ok by (eapply vec_at; eauto). cbn [bind].
  apply (@sum_value _ (fun i => mul ar (x i) (y i))); auto. intros k t Hk.
  apply bin_ok; [apply lit_ok | apply bin_ok; eapply vec_at; eauto].
Qed.
Lemma trace_ok h n A x : 0 < n -> mtx h A n n x -> trace ar chk n A h = Ok (sum ar n (fun i => x i i)).
Proof.
  intros Hn V. unfold trace. checks. erewrite mtx_at by eauto. cbn [bind].
  apply (@sum_value _ (fun i => x i i)); auto. intros k t Hk.
  apply bin_ok; [apply lit_ok | eapply mtx_at; eauto].
Qed.
Lemma SYM_SIZE_ge n : n <= SYM_SIZE n.
Proof. unfold SYM_SIZE. apply Nat.div_le_lower_bound; [lia |]. nia. Qed.
Lemma symTrace_ok h n A x : 0 < n -> vec h A (SYM_SIZE n) x -> symTrace ar chk n A h = Ok (sum ar n x).
Proof.
  intros Hn V. pose proof (SYM_SIZE_ge n). unfold symTrace. checks. erewrite vec_at by (eauto; lia). cbn [bind].
  apply (@sum_value _ x); auto. intros k t Hk.
  apply bin_ok; [apply lit_ok | eapply vec_at; eauto; lia].
Qed.
Lemma maxAbsoluteEntry_ok abs max h n A x : 0 < n -> vec h A n x ->
  maxAbsoluteEntry chk abs max n A h = Ok (fold_left (fun m y => max m (abs y)) (map x (seq 0 n)) (abs (x 0))).
Proof.
  intros Hn V. unfold maxAbsoluteEntry. checks. erewrite vec_at by eauto. cbn [bind].
  apply fold_ok. intros k t Hk. erewrite vec_at by (eauto; lia). reflexivity.
Qed.
Lemma normalize_ok invSqrt h n D x : 0 < n -> vdst h D n -> vec h D n x ->
  let s := invSqrt (sum ar n (fun i => mul ar (x i) (x i))) in
  oks (normalize ar chk invSqrt n D h)
      (fun '(h', r) => r = div ar (one ar) s /\ vec h' D n (fun i => mul ar (x i) s) /\ only (vslots D n) h h').
Proof.
  intros Hn Hd V s. unfold normalize. checks. erewrite l2NormSquared_ok by eauto. cbn [bind].
  eapply oks_bind; [eapply scale_ok; eauto |]. intros h' [V' O]. apply oks_ok. auto.
Qed.

(** * Transposition and the identity *)
Lemma transpose_ok h n m D A x : mdst h D n m -> mtx h A m n x -> apart (mslots D n m) (mslots A m n) ->
  wrote_m h D n m (fun i j => x j i) (transpose chk n m D A h).
Proof.
  intros Hd Ha P. unfold transpose. checks.
  set (Dt := MRef (fun i j => mat D j i) m n).
  assert (Hdt : mdst h Dt m n).
  { destruct Hd as (L & R & J). split; [auto | split; cbn].
    - intros i j Hi Hj. auto.
    - intros i j k l Hi Hj Hk Hl E. apply J in E; auto. tauto. }
  assert (Sl : forall s, mslots Dt m n s -> mslots D n m s) by (intros s (i & j & Hi & Hj & E); exists j, i; auto).
  eapply oks_mono.
  - apply mop with (D := Dt) (v := x); auto. intros i j h' S. pose proof (only_more _ (mseen_only S) Sl) as O.
    pose proof (proj1 S) as [Hi Hj]. apply assign_ok; [reads |]. exact (mseen_lt S Hdt).
  - cbn. intros h' [[_ V] O]. split; [split; [exact (proj1 Hd) |] |].
    + intros i j Hi Hj. apply (V j i); auto.
    + now apply only_more with (mslots Dt m n).
Qed.

Lemma addIdentity_ok h n D x s : mdst h D n n -> mtx h D n n x ->
  wrote_m h D n n (fun i j => if i =? j then add ar (x i j) s else x i j) (addIdentity ar chk n D s h).
Proof.
  intros Hd V. unfold addIdentity. checks.
  set (Dd := VRef (fun i => mat D i i) n).
  assert (Hdd : vdst h Dd n).
  { destruct Hd as (L & R & J). split; [auto | split; cbn; auto].
    intros i j Hi Hj E. apply J in E; auto. tauto. }
  assert (Vd : vec h Dd n (fun i => x i i)) by (split; [auto | intros i Hi; apply V; auto]).
  eapply oks_mono.
  - apply vop with (D := Dd) (v := fun i => add ar (x i i) s); auto.
    intros i h' S. pose proof (vseen_self S Hdd Vd) as Own. apply assign_ok; [| exact (vseen_lt S Hdd)].
    eapply bin_ok; [apply load_ok; exact Own | apply lit_ok].
  - cbn. intros h' [[_ W] O]. split; [split; [exact (proj1 V) |] |].
    + intros i j Hi Hj. destruct (Nat.eqb_spec i j) as [<- | Ne]; [apply (W i); auto |].
      rewrite (proj2 O). apply V; auto. intros (k & Hk & E). cbn in E. apply Hd in E; auto. lia.
    + apply only_more with (vslots Dd n); auto. intros a (i & Hi & E). exists i, i. auto.
Qed.
Lemma symAddIdentity_ok h n D x s : vdst h D (SYM_SIZE n) -> vec h D (SYM_SIZE n) x ->
  wrote_v h D (SYM_SIZE n) (fun i => if i <? n then add ar (x i) s else x i) (symAddIdentity ar chk n D s h).
Proof.
  intros Hd V. pose proof (SYM_SIZE_ge n) as G. unfold symAddIdentity. checks.
  set (Dd := VRef (vat D) n).
  assert (Hdd : vdst h Dd n).
  { destruct Hd as (L & R & J). split; [auto | split; cbn].
    - intros i Hi. apply R. lia.
    - intros i j Hi Hj E. apply J; auto; lia. }
  assert (Vd : vec h Dd n x) by (split; [auto | intros i Hi; apply V; lia]).
  eapply oks_mono.
  - apply vop with (D := Dd) (v := fun i => add ar (x i) s); auto.
    intros i h' S. pose proof (vseen_self S Hdd Vd) as Own. apply assign_ok; [| exact (vseen_lt S Hdd)].
    eapply bin_ok; [apply load_ok; exact Own | apply lit_ok].
  - cbv beta. intros h' [[_ W] O]. split; [split; [exact (proj1 V) |] |].
    + intros i Hi. destruct (Nat.ltb_spec i n) as [Lt | Ge]; [apply (W i); auto |].
      rewrite (proj2 O). apply V; auto. intros (k & Hk & E). cbn in E. apply Hd in E; auto; lia.
    + apply only_more with (vslots Dd n); auto. intros a (i & Hi & E). exists i. split; [lia | auto].
Qed.

Lemma transpose_in_place_ok h n D x : mdst h D n n -> mtx h D n n x ->
  wrote_m h D n n (fun i j => x j i) (transpose_in_place chk n D h).
Proof.
  intros Hd V. unfold transpose_in_place. checks. unfold loop. destruct Hd as (L & R & J).
  set (done := fun i j k l => k <> l /\ (Nat.min k l < i \/ (Nat.min k l = i /\ Nat.max k l < j))).
  set (inv := fun i j h' => only (mslots D n n) h h' /\
     forall k l, k < n -> l < n -> (done i j k l -> nth_error h' (mat D k l) = Some (Some (x l k))) /\
                                   (~ done i j k l -> nth_error h' (mat D k l) = Some (Some (x k l)))).
  eapply oks_mono.
  - apply (@oks_for_up memory (fun i h' => inv i (i + 1) h')).
    + split; [apply only_refl |]. intros k l Hk Hl. split; [unfold done; lia |]. intros _. now apply V.
    + intros i h1 Hi H. eapply oks_mono.
      * apply (@oks_for_up memory (fun j h' => inv i j h')); [exact H |].
        intros j h2 Hj (O & C).
        assert (Hj' : j < n) by lia. assert (Hin : i < n) by lia.
        pose proof (proj2 (C i j Hin Hj') ltac:(unfold done; lia)) as Cij.
        pose proof (proj2 (C j i Hj' Hin) ltac:(unfold done; lia)) as Cji.
        assert (Dij : mat D i j <> mat D j i) by (intros E; apply J in E; auto; lia).
        exists (upd (upd h2 (mat D i j) (Some (x j i))) (mat D j i) (Some (x i j))). split.
        { unfold mx. rewrite (load_ok _ _ Cij). cbn [bind]. unfold andthen.
          rewrite (@assign_ok _ _ _ (x j i)); [| now apply load_ok | eapply slot_lt; eauto]. cbn [bind].
          apply assign_ok; [apply lit_ok |]. rewrite upd_length. eapply slot_lt; eauto. }
        split.
        { apply only_upd; [apply only_upd; [auto |] |]; [exists i, j | exists j, i]; auto. }
        intros k l Hk Hl.
        destruct (Nat.eq_dec (mat D k l) (mat D j i)) as [E1 | N1]; [| destruct (Nat.eq_dec (mat D k l) (mat D i j)) as [E2 | N2]].
        -- rewrite E1. rewrite nth_error_upd_eq by (rewrite upd_length; eapply slot_lt; eauto).
           apply J in E1; auto. destruct E1; subst k l. unfold done. split; [auto | intros N; exfalso; apply N; lia].
        -- rewrite nth_error_upd_ne by auto. rewrite E2. rewrite nth_error_upd_eq by (eapply slot_lt; eauto).
           apply J in E2; auto. destruct E2; subst k l. unfold done. split; [auto | intros N; exfalso; apply N; lia].
        -- rewrite !nth_error_upd_ne by auto.
           assert (~ (k = j /\ l = i)) by (intros [-> ->]; auto). assert (~ (k = i /\ l = j)) by (intros [-> ->]; auto).
           destruct (C k l Hk Hl) as [C1 C2]. split; intros Hdn; [apply C1 | apply C2]; unfold done in *; lia.
      * cbn. intros h2 (O & C). split; [auto |]. intros k l Hk Hl. destruct (C k l Hk Hl) as [C1 C2].
        split; intros Hdn; [apply C1 | apply C2]; unfold done in *; lia.
  - cbn. intros h' (O & C). split; [split; [exact (proj1 V) |] | auto]. intros i j Hi Hj. destruct (C i j Hi Hj) as [C1 C2].
    destruct (Nat.eq_dec i j) as [<- | Ne]; [apply C2 | apply C1]; unfold done; lia.
Qed.

(** * Assignments written out one after the other: what the destination holds meanwhile *)
Definition vstate h0 D n (f : nat -> option (option T)) h :=
  only (vslots D n) h0 h /\ forall i, i < n -> nth_error h (vat D i) = f i.
Definition mstate h0 D n m (f : nat -> nat -> option (option T)) h :=
  only (mslots D n m) h0 h /\ forall i j, i < n -> j < m -> nth_error h (mat D i j) = f i j.

Lemma vstate_start h D n : vstate h D n (fun i => nth_error h (vat D i)) h.
Proof. split; [apply only_refl | auto]. Qed.
Lemma vstate_known h D n x : vec h D n x -> vstate h D n (fun i => Some (Some (x i))) h.
Proof. intros V. split; [apply only_refl | apply V]. Qed.
Lemma mstate_start h D n m : mstate h D n m (fun i j => nth_error h (mat D i j)) h.
Proof. split; [apply only_refl | auto]. Qed.
Lemma mstate_known h D n m x : mtx h D n m x -> mstate h D n m (fun i j => Some (Some (x i j))) h.
Proof. intros V. split; [apply only_refl | apply V]. Qed.

Lemma vstate_at h0 D n f h i v : vstate h0 D n f h -> i < n -> f i = Some (Some v) -> vx D i h = Ok v.
Proof. intros (_ & F) Hi E. apply load_ok. rewrite F; auto. Qed.
Lemma mstate_at h0 D n m f h i j v : mstate h0 D n m f h -> i < n -> j < m -> f i j = Some (Some v) -> mx D i j h = Ok v.
Proof. intros (_ & F) Hi Hj E. apply load_ok. rewrite F; auto. Qed.

Lemma vassign h0 D n f h i (e : expr T) v : vdst h0 D n -> vstate h0 D n f h -> i < n -> e h = Ok v ->
  oks (assign_at (vat D i) e h) (vstate h0 D n (fun k => if k =? i then Some (Some v) else f k)).
Proof.
  intros (L & R & J) (O & F) Hi E. eexists. split.
  - apply assign_ok; [exact E |]. rewrite (proj1 O). auto.
  - split; [apply only_upd; [auto | exists i; auto] |]. intros k Hk.
    destruct (Nat.eqb_spec k i) as [-> | Ne].
    + apply nth_error_upd_eq. rewrite (proj1 O). auto.
    + rewrite nth_error_upd_ne; auto.
Qed.
Lemma massign h0 D n m f h i j (e : expr T) v : mdst h0 D n m -> mstate h0 D n m f h -> i < n -> j < m -> e h = Ok v ->
  oks (assign_at (mat D i j) e h) (mstate h0 D n m (fun k l => if (k =? i) && (l =? j) then Some (Some v) else f k l)).
Proof.
  intros (L & R & J) (O & F) Hi Hj E. eexists. split.
  - apply assign_ok; [exact E |]. rewrite (proj1 O). auto.
  - split; [apply only_upd; [auto | exists i, j; auto] |]. intros k l Hk Hl.
    destruct (Nat.eqb_spec k i) as [-> | Ne]; [destruct (Nat.eqb_spec l j) as [-> | Ne] |]; cbn.
    + apply nth_error_upd_eq. rewrite (proj1 O). auto.
    + rewrite nth_error_upd_ne; auto. intros Eq. apply J in Eq; auto. lia.
    + rewrite nth_error_upd_ne; auto. intros Eq. apply J in Eq; auto. lia.
Qed.
Lemma andthen_ok (c d : command T) h Q R : oks (c h) R -> (forall h', R h' -> oks (d h') Q) -> oks (andthen c d h) Q.
Proof. intros. unfold andthen. eapply oks_bind; eauto. Qed.

Lemma vstate_only h0 D n f h : vstate h0 D n f h -> only (vslots D n) h0 h.
Proof. intros H. apply H. Qed.
Lemma mstate_only h0 D n m f h : mstate h0 D n m f h -> only (mslots D n m) h0 h.
Proof. intros H. apply H. Qed.
Lemma below_0 (P : nat -> Prop) : forall i, i < 0 -> P i.
Proof. intros; lia. Qed.
Lemma below_S (P : nat -> Prop) n : P 0 -> (forall i, i < n -> P (S i)) -> forall i, i < S n -> P i.
Proof. intros P0 PS [| i] Hi; auto. apply PS. lia. Qed.
End Proofs.

Ltac checks := repeat first
  [ rewrite check1_ok by (match goal with H : vec _ ?A _ _ |- vlen ?A = _ => exact (proj1 H) | H : vdst _ ?A _ |- vlen ?A = _ => exact (proj1 H) end); cbn [bind]
  | rewrite check2_ok by (match goal with H : mtx _ ?A _ _ _ |- mrows ?A = _ /\ _ => exact (proj1 H) | H : mdst _ ?A _ _ |- mrows ?A = _ /\ _ => exact (proj1 H) end); cbn [bind] ].
(** Solve [expression h = Ok ?v] by its syntax: destination entries through the state, sources because they are apart. *)
Ltac evals := repeat first
  [ eapply bin_ok | apply lit_ok
  | match goal with S : vstate _ ?D _ _ ?h |- vx ?D _ ?h = _ => eapply vstate_at; [exact S | lia | reflexivity] end
  | match goal with S : mstate _ ?D _ _ _ ?h |- mx ?D _ _ ?h = _ => eapply mstate_at; [exact S | lia | lia | reflexivity] end
  | match goal with V : vec ?h ?A _ _ |- vx ?A _ ?h = _ => eapply vec_at; [exact V | lia] end
  | match goal with V : mtx ?h ?A _ _ _ |- mx ?A _ _ ?h = _ => eapply mtx_at; [exact V | lia | lia] end
  | match goal with V : vec _ ?A _ _, S : vstate _ _ _ _ ?h |- vx ?A _ ?h = _ =>
      eapply vec_at; [eapply only_vec; [exact (vstate_only S) | | exact V]; assumption | lia] end
  | match goal with V : mtx _ ?A _ _ _, S : vstate _ _ _ _ ?h |- mx ?A _ _ ?h = _ =>
      eapply mtx_at; [eapply only_mtx; [exact (vstate_only S) | | exact V]; assumption | lia | lia] end
  | match goal with V : vec _ ?A _ _, S : mstate _ _ _ _ _ ?h |- vx ?A _ ?h = _ =>
      eapply vec_at; [eapply only_vec; [exact (mstate_only S) | | exact V]; assumption | lia] end
  | match goal with V : mtx _ ?A _ _ _, S : mstate _ _ _ _ _ ?h |- mx ?A _ _ ?h = _ =>
      eapply mtx_at; [eapply only_mtx; [exact (mstate_only S) | | exact V]; assumption | lia | lia] end ].
Ltac assigns1 := match goal with
  | S : vstate _ _ _ _ ?h |- oks (assign_at _ _ ?h) _ => eapply vassign; [eassumption | exact S | lia | evals]
  | S : mstate _ _ _ _ _ ?h |- oks (assign_at _ _ ?h) _ => eapply massign; [eassumption | exact S | lia | lia | evals] end.
Ltac assigns := repeat match goal with
  | |- oks (andthen _ _ ?h) _ =>
      eapply andthen_ok; [assigns1 |];
      let h' := fresh "h" in let S' := fresh "S" in intros h' S';
      match goal with S : vstate _ _ _ _ h |- _ => clear S | S : mstate _ _ _ _ _ h |- _ => clear S end
  | |- oks (assign_at _ _ _) _ => eapply oks_mono; [assigns1 |]
  end.
(** Check a property of all the indices below a literal one by one. *)
Ltac each_index := repeat (cbv beta; match goal with
  | |- forall i, i < S ?n -> @?P i => refine (@below_S P n _ _)
  | |- forall i, i < 0 -> @?P i => exact (@below_0 P) end).

Section Cross.
Variable T : Type.
Variable ar : arith T.
Variable chk : bool.
Implicit Types h : list (option T).
Lemma crossProduct_ok h D A x B y : vdst h D 3 -> vec h A 3 x -> vec h B 3 y ->
  apart (vslots D 3) (vslots A 3) -> apart (vslots D 3) (vslots B 3) ->
  oks (crossProduct ar chk D A B h) (fun h' => vec h' D 3
    (fun i => let j := (i + 1) mod 3 in let k := (i + 2) mod 3 in sub ar (mul ar (x j) (y k)) (mul ar (x k) (y j)))
    /\ only (vslots D 3) h h').
Proof.
  intros. unfold crossProduct. checks. pose proof (vstate_start h D 3) as S. assigns.
  intros h' (O & F). split; [split; [exact (proj1 H) |] | auto].
  each_index; rewrite F by lia; reflexivity.
Qed.
End Cross.
