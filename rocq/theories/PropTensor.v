(** Properties C48, C59 and C60: vector and matrix operations of all sizes. *)
From Coq Require Import List Arith Bool Lia Ring Field ZArith.
From Coq Require QArith Qcanon.
From Verif Require Import Base BaseProofs Tensor TensorSpec TensorFixed TensorProofs TensorFixedProofs TensorLaws.
Import ListNotations.
Set Implicit Arguments.
Local Open Scope nat_scope.

Section Laws.
Variable T : Type.
Variable ar : arith T.
Notation memory := (list (option T)).
Notation "x + y" := (add ar x y).
Notation "x * y" := (mul ar x y).

(** C48: each product computes the sum it is named after, added up from left to right, and writes nothing but its result.
    No law of the arithmetic is assumed, so this also determines the result over floating point numbers. *)
Theorem C48_matrix_vector : forall chk (h : memory) n m D (A : mref) B x y, vdst h D n -> vec h B m y -> apart (vslots D n) (vslots B m) ->
  (mtx h A n m x -> apart (vslots D n) (mslots A n m) -> 0 < m ->
     vwrote h (Ri_eq_AijBj ar chk n m D A B h) D n (fun i => sum ar m (fun j => x i j * y j))) /\
  (mtx h A n m x -> apart (vslots D n) (mslots A n m) -> forall r, vec h D n r ->
     vwrote h (Ri_add_AijBj ar chk n m D A B h) D n (fun i => sum_onto ar (r i) m (fun j => x i j * y j))) /\
  (mtx h A m n x -> apart (vslots D n) (mslots A m n) -> 0 < m ->
     vwrote h (Ri_eq_AjiBj ar chk n m D A B h) D n (fun i => sum ar m (fun j => x j i * y j))) /\
  (mtx h A m n x -> apart (vslots D n) (mslots A m n) -> forall r, vec h D n r ->
     vwrote h (Ri_add_AjiBj ar chk n m D A B h) D n (fun i => sum_onto ar (r i) m (fun j => x j i * y j))).
Proof.
  intros. split; [| split; [| split]]; intros;
  [ apply Ri_eq_AijBj_ok | apply Ri_add_AijBj_ok | apply Ri_eq_AjiBj_ok | apply Ri_add_AjiBj_ok ]; auto.
Qed.

Theorem C48_matrix_matrix : forall chk (h : memory) n m p D (A B : mref) x y, mdst h D n m ->
  (mtx h A n p x -> mtx h B p m y -> apart (mslots D n m) (mslots A n p) -> apart (mslots D n m) (mslots B p m) ->
     (0 < p -> mwrote h (Rij_eq_AikBkj ar chk n m p D A B h) D n m (fun i j => sum ar p (fun k => x i k * y k j))) /\
     (forall r, mtx h D n m r ->
        mwrote h (Rij_add_AikBkj ar chk n m p D A B h) D n m (fun i j => sum_onto ar (r i j) p (fun k => x i k * y k j)))) /\
  (mtx h A n p x -> mtx h B m p y -> apart (mslots D n m) (mslots A n p) -> apart (mslots D n m) (mslots B m p) ->
     (0 < p -> mwrote h (Rij_eq_AikBjk ar chk n m p D A B h) D n m (fun i j => sum ar p (fun k => x i k * y j k))) /\
     (forall r, mtx h D n m r ->
        mwrote h (Rij_add_AikBjk ar chk n m p D A B h) D n m (fun i j => sum_onto ar (r i j) p (fun k => x i k * y j k)))) /\
  (mtx h A p n x -> mtx h B p m y -> apart (mslots D n m) (mslots A p n) -> apart (mslots D n m) (mslots B p m) ->
     (0 < p -> mwrote h (Rij_eq_AkiBkj ar chk n m p D A B h) D n m (fun i j => sum ar p (fun k => x k i * y k j))) /\
     (forall r, mtx h D n m r ->
        mwrote h (Rij_add_AkiBkj ar chk n m p D A B h) D n m (fun i j => sum_onto ar (r i j) p (fun k => x k i * y k j)))).
Proof.
  intros. split; [| split]; intros; split; intros;
  [ apply Rij_eq_AikBkj_ok | apply Rij_add_AikBkj_ok | apply Rij_eq_AikBjk_ok | apply Rij_add_AikBjk_ok
  | apply Rij_eq_AkiBkj_ok | apply Rij_add_AkiBkj_ok ]; auto.
Qed.

Theorem C48_squares : forall chk (h : memory) n m D (A : mref) x, mdst h D n n ->
  (mtx h A n m x -> apart (mslots D n n) (mslots A n m) -> forall r, mtx h D n n r ->
     mwrote h (Rij_add_AikAjk ar chk n m D A h) D n n (fun i j => sum_onto ar (r i j) m (fun k => x i k * x j k))) /\
  (mtx h A m n x -> apart (mslots D n n) (mslots A m n) -> 0 < m ->
     mwrote h (Rij_eq_AkiAkj ar chk n m D A h) D n n (fun i j => sum ar m (fun k => x k i * x k j))).
Proof. intros. split; intros; [apply Rij_add_AikAjk_ok | apply Rij_eq_AkiAkj_ok]; auto. Qed.

Theorem C48_vectors : forall chk (h : memory) n m (A B : vref) x y, vec h A n x -> vec h B m y ->
  (0 < n -> n = m -> AiBi ar chk n A B h = Ok (sum ar n (fun i => x i * y i))) /\
  (forall D, mdst h D n m -> apart (mslots D n m) (vslots A n) -> apart (mslots D n m) (vslots B m) ->
     mwrote h (Rij_eq_AiBj ar chk n m D A B h) D n m (fun i j => x i * y j) /\
     forall r, mtx h D n m r -> mwrote h (Rij_add_AiBj ar chk n m D A B h) D n m (fun i j => r i j + x i * y j)).
Proof.
  intros. split; intros; [subst; apply AiBi_ok; auto |]. split; intros; [apply Rij_eq_AiBj_ok | apply Rij_add_AiBj_ok]; auto.
Qed.

(** With bounds checking, an operand whose extents are not the ones the product needs stops the program. *)
Theorem C48_extents : forall (h : memory) n m p (d e f : vref) (D E F : mref),
  let no := (fun (r : outcome memory) (ok : Prop) => ~ ok -> r = Abort) in
  let v := fun (a : vref) n => vlen a = n in
  let w := fun (a : mref) n m => mrows a = n /\ mcols a = m in
  no (Ri_eq_AijBj ar true n m d E f h) (v d n /\ w E n m /\ v f m) /\
  no (Ri_add_AijBj ar true n m d E f h) (v d n /\ w E n m /\ v f m) /\
  no (Ri_eq_AjiBj ar true n m d E f h) (v d n /\ w E m n /\ v f m) /\
  no (Ri_add_AjiBj ar true n m d E f h) (v d n /\ w E m n /\ v f m) /\
  no (Rij_eq_AikBkj ar true n m p D E F h) (w D n m /\ w E n p /\ w F p m) /\
  no (Rij_add_AikBkj ar true n m p D E F h) (w D n m /\ w E n p /\ w F p m) /\
  no (Rij_eq_AikBjk ar true n m p D E F h) (w D n m /\ w E n p /\ w F m p) /\
  no (Rij_add_AikBjk ar true n m p D E F h) (w D n m /\ w E n p /\ w F m p) /\
  no (Rij_eq_AkiBkj ar true n m p D E F h) (w D n m /\ w E p n /\ w F p m) /\
  no (Rij_add_AkiBkj ar true n m p D E F h) (w D n m /\ w E p n /\ w F p m) /\
  no (Rij_add_AikAjk ar true n m D E h) (w D n n /\ w E n m) /\
  no (Rij_eq_AkiAkj ar true n m D E h) (w D n n /\ w E m n) /\
  no (Rij_eq_AiBj ar true n m D e f h) (w D n m /\ v e n /\ v f m) /\
  no (Rij_add_AiBj ar true n m D e f h) (w D n m /\ v e n /\ v f m) /\
  (~ (v e n /\ v f n) -> AiBi ar true n e f h = Abort).
Proof.
  intros. subst no v w. cbv beta.
  repeat split; intros N;
  unfold Ri_eq_AijBj, Ri_add_AijBj, Ri_eq_AjiBj, Ri_add_AjiBj, Rij_eq_AikBkj, Rij_add_AikBkj, Rij_eq_AikBjk, Rij_add_AikBjk,
    Rij_eq_AkiBkj, Rij_add_AkiBkj, Rij_add_AikAjk, Rij_eq_AkiAkj, Rij_eq_AiBj, Rij_add_AiBj, AiBi, check1, check2, check_if, error_if;
  repeat (match goal with |- context [?a =? ?b] => destruct (Nat.eqb_spec a b) end; [| reflexivity]; cbn [negb bind andb]);
  exfalso; apply N; auto.
Qed.

(** The products with a transposed operand are the plain products after transposing that operand. *)
Theorem C48_second_transposed : forall chk (h : memory) n m p (A B D E : mref) x y, 0 < p ->
  disjoint [mslots A n p; mslots B m p; mslots D n m; mslots E p m] ->
  mtx h A n p x -> mtx h B m p y -> mdst h D n m -> mdst h E p m ->
  exists r, mwrote h (Rij_eq_AikBjk ar chk n m p D A B h) D n m r /\
    exists h', (h1 <- transpose chk p m E B h ;; Rij_eq_AikBkj ar chk n m p D A E h1) = Ok h' /\ mtx h' D n m r.
Proof.
  intros. pairs. exists (fun i j => sum ar p (fun k => x i k * y j k)). split.
  - apply Rij_eq_AikBjk_ok; kept.
  - step transpose_ok. last Rij_eq_AikBkj_ok. exact V0.
Qed.
Theorem C48_first_transposed : forall chk (h : memory) n m p (A B D E : mref) x y, 0 < p ->
  disjoint [mslots A p n; mslots B p m; mslots D n m; mslots E n p] ->
  mtx h A p n x -> mtx h B p m y -> mdst h D n m -> mdst h E n p ->
  exists r, mwrote h (Rij_eq_AkiBkj ar chk n m p D A B h) D n m r /\
    exists h', (h1 <- transpose chk n p E A h ;; Rij_eq_AikBkj ar chk n m p D E B h1) = Ok h' /\ mtx h' D n m r.
Proof.
  intros. pairs. exists (fun i j => sum ar p (fun k => x k i * y k j)). split.
  - apply Rij_eq_AkiBkj_ok; kept.
  - step transpose_ok. last Rij_eq_AikBkj_ok. exact V0.
Qed.
Theorem C48_vector_transposed : forall chk (h : memory) n m (A E : mref) (D B : vref) x y, 0 < m ->
  disjoint [mslots A m n; mslots E n m; vslots D n; vslots B m] ->
  mtx h A m n x -> vec h B m y -> vdst h D n -> mdst h E n m ->
  exists r, vwrote h (Ri_eq_AjiBj ar chk n m D A B h) D n r /\
    exists h', (h1 <- transpose chk n m E A h ;; Ri_eq_AijBj ar chk n m D E B h1) = Ok h' /\ vec h' D n r.
Proof.
  intros. pairs. exists (fun i => sum ar m (fun j => x j i * y j)). split.
  - apply Ri_eq_AjiBj_ok; kept.
  - step transpose_ok. last Ri_eq_AijBj_ok. exact V0.
Qed.
(** (A B)^T = B^T A^T when multiplication commutes (as it does for floating point numbers). *)
Theorem C48_transpose_of_product : forall chk (h : memory) n m p (A B D At Bt E : mref) x y, 0 < p -> (forall a b, a * b = b * a) ->
  disjoint [mslots A n p; mslots B p m; mslots D n m; mslots At p n; mslots Bt m p; mslots E m n] ->
  mtx h A n p x -> mtx h B p m y -> mdst h D n m -> mdst h At p n -> mdst h Bt m p -> mdst h E m n ->
  exists r,
    (exists h', (h1 <- Rij_eq_AikBkj ar chk n m p D A B h ;; transpose chk m n E D h1) = Ok h' /\ mtx h' E m n r) /\
    (exists h', (h1 <- transpose chk p n At A h ;; h2 <- transpose chk m p Bt B h1 ;; Rij_eq_AikBkj ar chk m n p E Bt At h2) = Ok h' /\
                mtx h' E m n r).
Proof.
  intros. pairs. exists (fun j i => sum ar p (fun k => x i k * y k j)). split.
  - step Rij_eq_AikBkj_ok. last transpose_ok. exact V0.
  - step transpose_ok. step transpose_ok. last Rij_eq_AikBkj_ok. eapply mtx_ext; [exact V1 |]. intros. apply sum_ext. auto.
Qed.
(** (A B) C = A (B C) and (A B) v = A (B v) over a ring. *)
Theorem C48_associative : forall chk (h : memory) n m p q (A B C D E F : mref) x y z, 0 < m -> 0 < p ->
  ring_theory (zero ar) (one ar) (add ar) (mul ar) (sub ar) (opp ar) eq ->
  disjoint [mslots A n m; mslots B m p; mslots C p q; mslots D n p; mslots E m q; mslots F n q] ->
  mtx h A n m x -> mtx h B m p y -> mtx h C p q z -> mdst h D n p -> mdst h E m q -> mdst h F n q ->
  exists r,
    (exists h', (h1 <- Rij_eq_AikBkj ar chk n p m D A B h ;; Rij_eq_AikBkj ar chk n q p F D C h1) = Ok h' /\ mtx h' F n q r) /\
    (exists h', (h1 <- Rij_eq_AikBkj ar chk m q p E B C h ;; Rij_eq_AikBkj ar chk n q m F A E h1) = Ok h' /\ mtx h' F n q r).
Proof.
  intros until 2. intros Rth. intros. pairs.
  exists (fun i j => sum ar p (fun k => sum ar m (fun l => x i l * y l k) * z k j)). split.
  - step Rij_eq_AikBkj_ok. last Rij_eq_AikBkj_ok. exact V0.
  - step Rij_eq_AikBkj_ok. last Rij_eq_AikBkj_ok. eapply mtx_ext; [exact V0 |]. intros i j Hi Hj. cbv beta.
    erewrite sum_ext by (intros; apply (sum_mul_l ar Rth)). rewrite (sum_swap ar Rth). apply sum_ext. intros k Hk.
    rewrite (sum_mul_r ar Rth). apply sum_ext. intros l Hl. apply (Rmul_assoc Rth).
Qed.
Theorem C48_associative_vector : forall chk (h : memory) n m p (A B D : mref) (v w u : vref) x y z, 0 < m -> 0 < p ->
  ring_theory (zero ar) (one ar) (add ar) (mul ar) (sub ar) (opp ar) eq ->
  disjoint [mslots A n m; mslots B m p; vslots v p; mslots D n p; vslots w m; vslots u n] ->
  mtx h A n m x -> mtx h B m p y -> vec h v p z -> mdst h D n p -> vdst h w m -> vdst h u n ->
  exists r,
    (exists h', (h1 <- Rij_eq_AikBkj ar chk n p m D A B h ;; Ri_eq_AijBj ar chk n p u D v h1) = Ok h' /\ vec h' u n r) /\
    (exists h', (h1 <- Ri_eq_AijBj ar chk m p w B v h ;; Ri_eq_AijBj ar chk n m u A w h1) = Ok h' /\ vec h' u n r).
Proof.
  intros until 2. intros Rth. intros. pairs.
  exists (fun i => sum ar p (fun k => sum ar m (fun l => x i l * y l k) * z k)). split.
  - step Rij_eq_AikBkj_ok. last Ri_eq_AijBj_ok. exact V0.
  - step Ri_eq_AijBj_ok. last Ri_eq_AijBj_ok. eapply vec_ext; [exact V0 |]. intros i Hi. cbv beta.
    erewrite sum_ext by (intros; apply (sum_mul_l ar Rth)). rewrite (sum_swap ar Rth). apply sum_ext. intros k Hk.
    rewrite (sum_mul_r ar Rth). apply sum_ext. intros l Hl. apply (Rmul_assoc Rth).
Qed.
(** An operation that adds its sum to the result leaves what was there plus what the other operation gives. *)
Theorem C48_accumulate : forall r n f, ring_theory (zero ar) (one ar) (add ar) (mul ar) (sub ar) (opp ar) eq -> sum_onto ar r n f = r + sum ar n f.
Proof. intros. now apply sum_onto_sum. Qed.

(** C60: the elementwise operations. *)
Theorem C60_vectors : forall chk (h : memory) n D A B x y (s : T), vdst h D n -> vec h A n x -> vec h B n y ->
  apart (vslots D n) (vslots A n) -> apart (vslots D n) (vslots B n) ->
  vwrote h (fill chk n D s h) D n (fun _ => s) /\
  vwrote h (copy chk n D A h) D n x /\
  vwrote h (scaledCopy ar chk n D A s h) D n (fun i => s * x i) /\
  vwrote h (hadamardProduct ar chk n D A B h) D n (fun i => x i * y i) /\
  (forall r, vec h D n r ->
    vwrote h (scale ar chk n D s h) D n (fun i => r i * s) /\
    vwrote h (addScalar ar chk n D s h) D n (fun i => r i + s) /\
    vwrote h (addV ar chk n D A h) D n (fun i => r i + x i) /\
    vwrote h (subtract ar chk n D A h) D n (fun i => sub ar (r i) (x i)) /\
    vwrote h (scaledAdd ar chk n D A s h) D n (fun i => r i + s * x i)).
Proof.
  intros. repeat split; intros;
  [ apply fill_ok | apply copy_ok | apply scaledCopy_ok | apply hadamardProduct_ok | apply scale_ok | apply addScalar_ok
  | apply addV_ok | apply subtract_ok | apply scaledAdd_ok ]; auto.
Qed.
Theorem C60_matrices : forall chk (h : memory) n m (D A : mref) x (s : T), mdst h D n m ->
  mwrote h (fillM chk n m D s h) D n m (fun _ _ => s) /\
  (mtx h A n m x -> apart (mslots D n m) (mslots A n m) ->
    mwrote h (copyM chk n m D A h) D n m x /\
    mwrote h (scaledCopyM ar chk n m D A s h) D n m (fun i j => s * x i j) /\
    (forall r, mtx h D n m r ->
      mwrote h (addM ar chk n m D A h) D n m (fun i j => r i j + x i j) /\
      mwrote h (scaledAddM ar chk n m D A s h) D n m (fun i j => r i j + s * x i j))) /\
  (mtx h A m n x -> apart (mslots D n m) (mslots A m n) -> mwrote h (transpose chk n m D A h) D n m (fun i j => x j i)) /\
  (forall r, mtx h D n m r -> mwrote h (scaleM ar chk n m D s h) D n m (fun i j => r i j * s)).
Proof.
  intros. repeat split; intros;
  [ apply fillM_ok | apply copyM_ok | apply scaledCopyM_ok | apply addM_ok | apply scaledAddM_ok | apply transpose_ok | apply scaleM_ok ]; auto.
Qed.
Theorem C60_square_matrices : forall chk (h : memory) n (D : mref) x (s : T), mdst h D n n -> mtx h D n n x ->
  mwrote h (transpose_in_place chk n D h) D n n (fun i j => x j i) /\
  mwrote h (addIdentity ar chk n D s h) D n n (fun i j => if i =? j then x i j + s else x i j) /\
  (0 < n -> trace ar chk n D h = Ok (sum ar n (fun i => x i i))).
Proof.
  intros. split; [| split]; intros; [apply transpose_in_place_ok | apply addIdentity_ok | apply trace_ok]; auto.
Qed.
Theorem C60_symmetric_matrices : forall chk (h : memory) n (D : vref) x (s : T), vdst h D (n * (n + 1) / 2)%nat -> vec h D (n * (n + 1) / 2)%nat x ->
  vwrote h (symAddIdentity ar chk n D s h) D (n * (n + 1) / 2)%nat (fun i => if i <? n then x i + s else x i) /\
  (0 < n -> symTrace ar chk n D h = Ok (sum ar n x)).
Proof. intros. split; intros; [apply symAddIdentity_ok | apply symTrace_ok]; auto. Qed.

(** C59 *)
Theorem C59_max_absolute_entry : forall (le : T -> T -> Prop) (abs : T -> T) (max : T -> T -> T),
  (forall a, le a a) -> (forall a b c, le a b -> le b c -> le a c) ->
  (forall a b, (max a b = a \/ max a b = b) /\ le a (max a b) /\ le b (max a b)) ->
  forall chk (h : memory) n A x, 0 < n -> vec h A n x ->
  exists m, maxAbsoluteEntry chk abs max n A h = Ok m /\ (exists i, i < n /\ m = abs (x i)) /\ (forall i, i < n -> le (abs (x i)) m).
Proof.
  intros le abs max Refl Tr Mx chk h n A x Pn V. eexists. split; [apply (maxAbsoluteEntry_ok _ _ _ Pn V) |].
  assert (G : forall l m0, let m := fold_left (fun m y => max m (abs y)) l m0 in
     le m0 m /\ (forall y, In y l -> le (abs y) m) /\ (m = m0 \/ exists y, In y l /\ m = abs y)).
  { induction l as [| y l IH]; intros m0; cbn; [repeat split; auto; contradiction |].
    destruct (IH (max m0 (abs y))) as (A1 & A2 & A3). destruct (Mx m0 (abs y)) as (B1 & B2 & B3). split; [eauto | split].
    - intros z [-> | Hz]; eauto.
    - destruct A3 as [-> | (z & Hz & ->)]; [| right; eauto]. destruct B1 as [-> | ->]; eauto. }
  destruct (G (map x (seq 0 n)) (abs (x 0))) as (A1 & A2 & A3). cbv zeta in *. split.
  - destruct A3 as [-> | (y & Hy & ->)]; [exists 0; auto |]. apply in_map_iff in Hy. destruct Hy as (i & <- & Hi).
    apply in_seq in Hi. exists i. split; [lia | reflexivity].
  - intros i Hi. apply A2, in_map, in_seq. lia.
Qed.
Theorem C59_norm : forall (sqrt : T -> T) chk (h : memory) n A x, 0 < n -> vec h A n x ->
  exists s, s = sum ar n (fun i => x i * x i) /\ l2NormSquared ar chk n A h = Ok s /\ AiBi ar chk n A A h = Ok s /\
    l2Norm ar chk sqrt n A h = Ok (sqrt s).
Proof.
  intros. eexists. split; [reflexivity |]. split; [now apply l2NormSquared_ok | split; [now apply AiBi_ok | now apply l2Norm_ok]].
Qed.
(** If [invSqrt s] is the inverse of a square root of the squared norm [s], the vector has norm one afterwards and is the old one
    divided by the returned norm. *)
Theorem C59_normalize : forall inv, field_theory (zero ar) (one ar) (add ar) (mul ar) (sub ar) (opp ar) (div ar) inv eq ->
  forall (invSqrt : T -> T) chk (h : memory) n D x s, 0 < n -> vdst h D n -> vec h D n x ->
  s = sum ar n (fun i => x i * x i) -> invSqrt s * invSqrt s * s = one ar ->
  exists h' norm y, normalize ar chk invSqrt n D h = Ok (h', norm) /\ only (vslots D n) h h' /\ norm * norm = s /\
    vec h' D n y /\ (forall i, i < n -> y i * norm = x i) /\ l2NormSquared ar chk n D h' = Ok (one ar).
Proof.
  intros inv F invSqrt chk h n D x s Pn Hd V Es Eq. destruct (normalize_ok ar chk invSqrt Pn Hd V) as ([h' r] & E & -> & V' & O).
  rewrite <- Es in *. destruct (normalize_laws ar F _ _ Eq) as [N1 N2].
  exists h', (div ar (one ar) (invSqrt s)), (fun i => x i * invSqrt s). repeat split; auto; try apply V'; try apply O.
  rewrite (l2NormSquared_ok ar chk Pn V'). apply f_equal. transitivity (invSqrt s * invSqrt s * sum ar n (fun i => x i * x i)); [| now rewrite <- Es].
  rewrite (sum_mul_l ar (F_R F)). apply sum_ext. intros k Hk. apply (normalize_square ar F).
Qed.
End Laws.

(** The theorems hold of actual operands: integers, with operands in a permuted layout. *)
Definition integers : arith Z := Arith 0%Z 1%Z Z.add Z.sub Z.mul Z.div Z.opp.
(** A block with a 2 x 3 matrix stored by columns at 0, a 3 x 2 matrix stored by rows at 6, and room for a 2 x 2 matrix at 12. *)
Definition block : list (option Z) := map Some [1; 4; 2; 5; 3; 6; 7; 8; 9; 10; 11; 12]%Z ++ repeat None 4.
Definition by_columns (base n m : nat) : mref := MRef (fun i j => base + (j * n + i)) n m.
Example C48_case :
  Rij_eq_AikBkj integers true 2 2 3 (cmatrix 12 2 2) (by_columns 0 2 3) (cmatrix 6 3 2) block
    = Ok (map Some [1; 4; 2; 5; 3; 6; 7; 8; 9; 10; 11; 12; 58; 64; 139; 154]%Z) /\
  Rij_eq_AikBkj integers true 2 2 2 (cmatrix 12 2 2) (by_columns 0 2 3) (cmatrix 6 3 2) block = Abort /\
  mdst block (cmatrix 12 2 2) 2 2 /\ apart (mslots (cmatrix 12 2 2) 2 2) (mslots (by_columns 0 2 3) 2 3).
Proof.
  split; [vm_compute; reflexivity | split; [vm_compute; reflexivity | split]].
  - split; [auto | split; cbn; intros; lia].
  - intros s (i & j & Hi & Hj & E1) (k & l & Hk & Hl & E2). cbn in *. lia.
Qed.
Example C60_case :
  transpose_in_place true 2 (cmatrix 0 2 2) block = Ok (map Some [1; 2; 4; 5; 3; 6; 7; 8; 9; 10; 11; 12]%Z ++ repeat None 4) /\
  trace integers true 2 (cmatrix 0 2 2) block = Ok 6%Z /\
  hadamardProduct integers true 2 (carray 12 2) (carray 0 2) (carray 2 2) block
    = Ok (map Some [1; 4; 2; 5; 3; 6; 7; 8; 9; 10; 11; 12; 2; 20]%Z ++ repeat None 2).
Proof. vm_compute. auto. Qed.
Definition rationals : arith Qcanon.Qc := Arith (Qcanon.Q2Qc (QArith_base.Qmake 0 1)) (Qcanon.Q2Qc (QArith_base.Qmake 1 1)) Qcanon.Qcplus Qcanon.Qcminus Qcanon.Qcmult Qcanon.Qcdiv Qcanon.Qcopp.
Definition q (n : Z) (d : positive) : Qcanon.Qc := Qcanon.Q2Qc (QArith_base.Qmake n d).
(** The fractions in lowest terms. *)
Definition fractions (r : outcome (list (option Qcanon.Qc) * Qcanon.Qc)) :=
  '(h, d) <- r ;; Ok (map (option_map Qcanon.this) h, Qcanon.this d).
(** The vector (3, 4) with the exact inverse of its norm. *)
Example C59_case :
  field_theory (zero rationals) (one rationals) (add rationals) (mul rationals) (sub rationals) (opp rationals) (div rationals) Qcanon.Qcinv eq /\
  mul rationals (mul rationals (q 1 5) (q 1 5)) (q 25 1) = one rationals /\
  fractions (normalize rationals true (fun _ => q 1 5) 2 (carray 0 2) [Some (q 3 1); Some (q 4 1)])
    = fractions (Ok ([Some (q 3 5); Some (q 4 5)], q 5 1)) /\
  maxAbsoluteEntry true Z.abs Z.max 3 (carray 0 3) (map Some [3; -7; 5])%Z = Ok 7%Z.
Proof. split; [exact Qcanon.Qcft | repeat split; try (apply Qcanon.Qc_is_canon); vm_compute; reflexivity]. Qed.

Print Assumptions C48_matrix_vector.
Print Assumptions C48_matrix_matrix.
Print Assumptions C48_squares.
Print Assumptions C48_vectors.
Print Assumptions C48_extents.
Print Assumptions C48_second_transposed.
Print Assumptions C48_first_transposed.
Print Assumptions C48_vector_transposed.
Print Assumptions C48_transpose_of_product.
Print Assumptions C48_associative.
Print Assumptions C48_associative_vector.
Print Assumptions C48_accumulate.
Print Assumptions C60_vectors.
Print Assumptions C60_matrices.
Print Assumptions C60_square_matrices.
Print Assumptions C60_symmetric_matrices.
Print Assumptions C59_max_absolute_entry.
Print Assumptions C59_norm.
Print Assumptions C59_normalize.
