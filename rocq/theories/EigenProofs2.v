(** What the 3x3 eigenvalue and eigenvector operations leave in the memory. *)
From Coq Require Import List Arith Bool Lia.
From Verif Require Import Base BaseProofs Tensor TensorSpec TensorFixed TensorProofs TensorFixedProofs Eigen EigenProofs.
Import ListNotations.
Set Implicit Arguments.

Section Values.
Variable T : Type.
Variable ar : arith T.
Variable fl : floating T.
Variable chk : bool.
Notation memory := (list (option T)).
Implicit Types h : memory.
Notation "x + y" := (add ar x y).
Notation "x - y" := (sub ar x y).
Notation "x * y" := (mul ar x y).
Notation "x / y" := (div ar x y).
Notation neg x := (opp ar x).
Notation num := (number ar).
Notation two := (two ar).
Notation "x > y" := (fgt fl x y).
Notation mean := (mean ar).
Notation centred := (centred ar).
Notation shifted := (shifted ar fl).
Notation max_entry := (max_entry fl).

(** ** Eigenvalues *)
Definition det3 (a : nat -> T) : T :=
  a 0 * a 1 * a 2 + a 5 * a 4 * a 3 * two - a 0 * a 3 * a 3 - a 1 * a 4 * a 4 - a 2 * a 5 * a 5.
Definition radius (a : nat -> T) : T := fsqrt fl ((a 2 * a 2 - a 0 * a 1 + a 3 * a 3 + a 4 * a 4 + a 5 * a 5) / num 3).
Definition angle (a : nat -> T) : T :=
  let p := radius a in
  let det := if p > zero ar then det3 a / (p * p * p) else zero ar in
  facos fl (if det > two then one ar else if neg two > det then neg (one ar) else det / two) / num 3.
Definition roots3 (a : nat -> T) (i : nat) : T :=
  let p := radius a in
  let s := fsin fl (angle a) in
  let c := fcos fl (angle a) in
  match i with 0 => neg p * (c + squareRootThree fl * s) | 1 => neg p * (c - squareRootThree fl * s) | _ => two * p * c end.
Lemma eigenvaluesOfShiftedMatrix3_ok h E A x : vdst h E 3 -> vec h A 6 x -> apart (vslots E 3) (vslots A 6) ->
  oks (eigenvaluesOfShiftedMatrix3 ar fl chk E A h) (fun h' => vec h' E 3 (roots3 x) /\ only (vslots E 3) h h').
Proof.
  intros Hd V Ap. unfold eigenvaluesOfShiftedMatrix3.
  eapply oks_bind; [apply oks_eq; evals | cbv beta; intros ? ->]. cbv zeta. fold (radius x).
  eapply oks_bind with (P := fun d => d = if radius x > zero ar then det3 x / (radius x * radius x * radius x) else zero ar).
  { destruct (radius x > zero ar); [| apply oks_ok; reflexivity]. unfold symDeterminant3. checks.
    eapply oks_bind; [apply oks_eq; evals | cbv beta; intros ? ->]. apply oks_ok. reflexivity. }
  intros det ->. straight.
Qed.
Lemma rescale3_ok h E x s m : vdst h E 3 -> vec h E 3 x ->
  oks (rescale3 ar E s m h) (fun h' => vec h' E 3 (fun i => m * x i + s) /\ only (vslots E 3) h h').
Proof. intros. unfold rescale3. straight. Qed.

Lemma symEigenvalues3_ok h E A x : vdst h E 3 -> vec h A 6 x -> apart (vslots E 3) (vslots A 6) ->
  oks (symEigenvalues3 ar fl chk E A h) (fun '(h', _) =>
    vec h' E 3 (fun i => max_entry 3 (centred 3 x) * roots3 (shifted 3 x) i + mean 3 x) /\ only (vslots E 3) h h').
Proof.
  intros Hd V A0. unfold symEigenvalues3. checks.
  pose proof (fresh_array_vdst (n:=6) Hd) as F1. pose proof (fresh_array_vec (n:=6) V) as F2.
  set (Q := fun (h' : memory) (_ : unit) => vec h' E 3 (fun i => max_entry 3 (centred 3 x) * roots3 (shifted 3 x) i + mean 3 x)).
  eapply oks_mono; [apply with_local_ok with (P := vslots E 3) (Q := Q) |].
  2:{ intros [h' []] (O & h2 & HQ & -> & L). split; [| exact O]. eapply vec_cut; eauto. }
  pose proof (vdst_grow (repeat None 6) Hd) as Hd0. apply (vec_grow (repeat None 6)) in V. pose proof (carray_dst h 6) as HF.
  pose proof (@fresh_array_slots _ h 6) as FS.
  set (h0 := h ++ repeat None 6) in *. set (F := carray (length h) 6) in *. cbv zeta.
  eapply oks_bind; [eapply copy_ok; eauto |]. cbv beta. intros h1 (V1 & O1).
  carry O1. eapply oks_bind; [apply (@shiftAndScale_ok _ ar fl chk 3 h1 F x); auto; lia |]. intros [h2 [s m]] (-> & -> & V2 & O2).
  change (SYM_SIZE 3) with 6 in *. clear V1. carry O2.
  eapply oks_bind; [eapply eigenvaluesOfShiftedMatrix3_ok; eauto using apart_sym |]. cbv beta. intros h3 (V3 & O3). carry O3.
  eapply oks_bind; [eapply rescale3_ok; eauto |]. cbv beta. intros h4 (V4 & O4). apply oks_ok. split; [exact V4 |].
  assert (forall s, vslots F 6 s -> vslots E 3 s \/ length h <= s) by auto.
  eapply only_trans; [eapply only_trans; [eapply only_trans |] |]; eapply only_more; eauto.
Qed.

(** ** Eigenvectors *)
Definition cross (x y : nat -> T) (i : nat) : T :=
  let j := (i + 1)%nat mod 3 in let k := (i + 2)%nat mod 3 in x j * y k - x k * y j.
Definition norm2 (x : nat -> T) : T := sum ar 3 (fun i => x i * x i).
Definition largest_row (m : nat -> nat -> T) : nat :=
  let a := fabs fl (m 0 0) in let b := fabs fl (m 1 1) in let c := fabs fl (m 2 2) in
  if a > b then (if a > c then 0 else 2) else (if b > c then 1 else 2).
Definition null_vector (m : nat -> nat -> T) (i : nat) : T :=
  let r := largest_row m in
  let x := cross (m r) (m ((r + 1)%nat mod 3)) in
  let y := cross (m r) (m ((r + 2)%nat mod 3)) in
  if norm2 x > norm2 y then x i * finvSqrt fl (norm2 x) else finvSqrt fl (norm2 y) * y i.
Lemma largest_row_lt m : largest_row m < 3.
Proof. unfold largest_row. destruct (_ > _), (_ > _); try lia; destruct (_ > _); lia. Qed.

Lemma getNullVector_ok h N M m : vdst h N 3 -> mtx h M 3 3 m -> apart (vslots N 3) (mslots M 3 3) ->
  oks (getNullVector ar fl chk N M h) (fun '(h', r) => r = largest_row m /\ vec h' N 3 (null_vector m) /\ only (vslots N 3) h h').
Proof.
  intros Hd V Ap. unfold getNullVector.
  eapply oks_bind; [apply oks_eq; evals | cbv beta; intros ? ->].
  eapply oks_bind; [apply oks_eq; evals | cbv beta; intros ? ->].
  eapply oks_bind; [apply oks_eq; evals | cbv beta; intros ? ->].
  cbv zeta. fold (largest_row m). pose proof (largest_row_lt m) as Hr. unfold null_vector. cbv zeta. set (r := largest_row m) in *.
  assert (H1 : (r + 1)%nat mod 3 < 3) by (apply Nat.mod_upper_bound; lia). set (r1 := (r + 1)%nat mod 3) in *.
  assert (H2 : (r + 2)%nat mod 3 < 3) by (apply Nat.mod_upper_bound; lia). set (r2 := (r + 2)%nat mod 3) in *.
  eapply oks_bind; [eapply crossProduct_ok; [exact Hd | exact (row_vec V Hr) | exact (row_vec V H1) | |]; eapply apart_row; eauto |].
  intros h1 (V1 & O1). carry O1. change (vec h1 N 3 (cross (m r) (m r1))) in V1.
  erewrite l2NormSquared_ok; [| lia | exact V1]. cbn [bind]. fold (norm2 (cross (m r) (m r1))).
  set (x := cross (m r) (m r1)) in *. set (y := cross (m r) (m r2)).
  set (Q := fun (h' : memory) (q : nat) => q = r /\ vec h' N 3 (fun i => if norm2 x > norm2 y then x i * finvSqrt fl (norm2 x) else finvSqrt fl (norm2 y) * y i)).
  eapply oks_mono; [apply with_local_ok with (P := vslots N 3) (Q := Q) |].
  2:{ intros [h' q] (O & h2 & (Eq & HQ) & -> & L). split; [exact Eq | split; [eapply vec_cut; eauto |]]. eapply only_trans; eauto. }
  pose proof (fresh_array_vdst (n:=3) Hd) as F1. pose proof (fresh_array_mtx (n:=3) V) as F2.
  pose proof (vdst_grow (repeat None 3) Hd) as Hd0. apply (mtx_grow (repeat None 3)) in V. pose proof (carray_dst h1 3) as HF.
  apply (vec_grow (repeat None 3)) in V1.
  pose proof (@fresh_array_slots _ h1 3) as FS.
  set (h0 := h1 ++ repeat None 3) in *. set (F := carray (length h1) 3) in *.
  eapply oks_bind; [eapply crossProduct_ok; [exact HF | exact (row_vec V Hr) | exact (row_vec V H2) | |]; eapply apart_row; eauto |].
  intros h2 (V2 & O2). carry O2. change (vec h2 F 3 y) in V2.
  erewrite l2NormSquared_ok; [| lia | exact V2]. cbn [bind]. fold (norm2 y).
  assert (I2 : forall s, vslots F 3 s -> vslots N 3 s \/ length h1 <= s) by auto.
  eapply oks_bind with (P := fun h3 => Q h3 r /\ only (vslots N 3) h2 h3).
  { unfold Q. destruct (norm2 x > norm2 y).
    - eapply oks_mono; [eapply scale_ok; eauto |]. cbv beta. intros h3 (V3 & O3). auto.
    - eapply oks_mono; [eapply scaledCopy_ok; eauto using apart_sym |]. cbv beta. intros h3 (V3 & O3). auto. }
  intros h3 (HQ & O3). apply oks_ok. split; [exact HQ |].
  eapply only_trans; eapply only_more; eauto.
Qed.

Definition minus (f : nat -> T) (l : T) (i j : nat) : T := if i =? j then f i - l else f (voigt 3 i j).
Definition most_distinct (e : nat -> T) : nat := if e 2 - e 1 > e 1 - e 0 then 2 else 0.
Definition second_vector (f e : nat -> T) (d : T) (i : nat) : T :=
  let md := most_distinct e in let sd := (2 - md)%nat in
  let m := minus f (e md) in let r := m (largest_row m) in
  if fle fl (fabs fl (e sd - e 1)) (two * epsilon fl * d) then finvSqrt fl (norm2 r) * r i else null_vector (minus f (e sd)) i.
Definition vectors3 (f e : nat -> T) (d : T) (i : nat) : nat -> T :=
  let md := most_distinct e in
  let u := null_vector (minus f (e md)) in
  let v := second_vector f e d in
  let w := if md =? 2 then cross u v else cross v u in
  if i =? 1 then fun j => w j * finvSqrt fl (norm2 w) else if i =? md then u else v.

Lemma eigenvectors3_ok h E V F e f d : mdst h V 3 3 -> vec h E 3 e -> vec h F 6 f -> vdst h E 3 -> vdst h F 6 ->
  apart (mslots V 3 3) (vslots F 6) -> apart (mslots V 3 3) (vslots E 3) ->
  oks (eigenvectors3 ar fl chk E V F d h) (fun '(h', _) => mtx h' V 3 3 (vectors3 f e d) /\ only (mslots V 3 3) h h').
Proof.
  intros Hv VE VF HE HF A1 A2. unfold eigenvectors3.
  eapply oks_bind; [apply oks_eq; evals | cbv beta; intros ? ->].
  eapply oks_bind; [apply oks_eq; evals | cbv beta; intros ? ->]. cbv zeta.
  fold (most_distinct e). set (sd := (2 - most_distinct e)%nat).
  set (Q := fun (h' : memory) (_ : T) => mtx h' V 3 3 (vectors3 f e d)).
  eapply oks_mono; [apply with_local_ok with (P := mslots V 3 3) (Q := Q) |].
  2:{ intros [h' q] (O & h2 & HQ & -> & L). split; [eapply mtx_cut; eauto | exact O]. }
  pose proof (fresh_matrix_vdst (n:=3) (m:=3) HE) as F1. pose proof (fresh_matrix_vdst (n:=3) (m:=3) HF) as F2.
  pose proof (fresh_matrix_mdst (n:=3) (m:=3) Hv) as F3.
  apply (mdst_grow (repeat None 9)) in Hv. apply (vdst_grow (repeat None 9)) in HE. apply (vdst_grow (repeat None 9)) in HF.
  apply (vec_grow (repeat None 9)) in VE. apply (vec_grow (repeat None 9)) in VF.
  pose proof (cmatrix_dst h 3 3) as HT. change (3 * 3)%nat with 9 in HT.
  pose proof (@fresh_matrix_slots _ h 3 3) as FS.
  set (h0 := h ++ repeat None 9) in *. set (M := cmatrix (length h) 3 3) in *.
  assert (Md : most_distinct e = 2 \/ most_distinct e = 0) by (unfold most_distinct; destruct (_ > _); auto).
  assert (Rows : forall i, i < 3 -> vdst h0 (row V i) 3) by (intros; eapply row_vdst; eauto).
  assert (ER : forall i, i < 3 -> apart (vslots (row V i) 3) (vslots E 3)) by (intros; eapply apart_sym, apart_row; eauto using apart_sym).
  assert (FR : forall i, i < 3 -> apart (vslots (row V i) 3) (vslots F 6)) by (intros; eapply apart_sym, apart_row; eauto using apart_sym).
  assert (MR : forall i, i < 3 -> apart (vslots (row V i) 3) (mslots M 3 3)) by (intros; eapply apart_sym, apart_row; eauto using apart_sym).
  assert (RR : forall i j, i < 3 -> j < 3 -> i <> j -> apart (vslots (row V i) 3) (vslots (row V j) 3)) by (intros; eapply apart_rows; eauto).
  set (P := fun s => mslots V 3 3 s \/ length h <= s).
  assert (PV : forall i s, i < 3 -> vslots (row V i) 3 s -> P s) by (intros i s Hi Hs; left; eapply row_slots; eauto).
  assert (PM : forall s, mslots M 3 3 s -> P s) by (unfold P; auto).
  assert (md_lt : most_distinct e < 3) by lia. assert (sd_lt : sd < 3) by (unfold sd; lia).
  assert (md_1 : most_distinct e <> 1) by lia. assert (sd_1 : sd <> 1) by (unfold sd; lia).
  assert (md_sd : most_distinct e <> sd) by (unfold sd; lia).
  eapply oks_bind with (P := fun h1 => mtx h1 M 3 3 (minus f (e (most_distinct e))) /\ only (mslots M 3 3) h0 h1).
  { straight. }
  intros h1 (V1 & O1). carry O1.
  eapply oks_bind; [eapply getNullVector_ok; [eapply row_vdst; eauto | exact V1 | auto] |].
  intros [h2 q] (-> & V2 & O2).
  apply (only_vec O2) in VE; auto. apply (only_vec O2) in VF; auto. apply (only_mtx O2) in V1; auto. carry O2.
  eapply oks_bind; [apply oks_eq; evals | cbv beta; intros ? ->].
  eapply oks_bind with (P := fun h3 => vec h3 (row V sd) 3 (second_vector f e d) /\
    only (fun s => mslots M 3 3 s \/ vslots (row V sd) 3 s) h2 h3).
  { unfold second_vector. cbv zeta. fold sd. destruct (fle fl _ _).
    - erewrite l2NormSquared_ok; [| lia | eapply row_vec; [exact V1 | apply largest_row_lt]]. cbn [bind].
      eapply oks_mono; [eapply scaledCopy_ok; [eapply row_vdst; eauto | eapply row_vec; [exact V1 | apply largest_row_lt] |] |].
      { eapply apart_row; [apply largest_row_lt | auto]. }
      cbv beta. intros h3 (V3 & O3). split; [exact V3 | eapply only_more; eauto].
    - eapply oks_bind with (P := fun h3 => mtx h3 M 3 3 (minus f (e sd)) /\ only (mslots M 3 3) h2 h3); [straight |].
      intros h3 (V3 & O3). clear V1. assert (Hv3 := mdst_only O3 Hv).
      eapply oks_bind; [eapply getNullVector_ok; [eapply row_vdst; eauto | exact V3 | auto] |].
      intros [h4 q] (_ & V4 & O4). apply oks_ok. split; [exact V4 |].
      eapply only_trans; eapply only_more; eauto. }
  intros h3 (V3 & O3).
  apply (only_vec O3) in V2. 2:{ apply apart_or; auto. eapply apart_sym, MR; auto. }
  assert (Hv3 := mdst_only O3 Hv).
  assert (R1 : vdst h3 (row V 1) 3) by (eapply row_vdst; eauto).
  set (w := if most_distinct e =? 2 then cross (null_vector (minus f (e (most_distinct e)))) (second_vector f e d)
            else cross (second_vector f e d) (null_vector (minus f (e (most_distinct e))))).
  eapply oks_bind with (P := fun h4 => vec h4 (row V 1) 3 w /\ only (vslots (row V 1) 3) h3 h4).
  { destruct Md as [Md | Md]; unfold w; subst sd; rewrite Md in *; cbn [Nat.eqb Nat.sub] in *.
    - eapply oks_mono; [eapply crossProduct_ok; [exact R1 | exact V2 | exact V3 | |]; apply RR; lia |]. auto.
    - eapply oks_mono; [eapply crossProduct_ok; [exact R1 | exact V3 | exact V2 | |]; apply RR; lia |]. auto. }
  intros h4 (V4 & O4). apply (only_vec O4) in V2; [| apply RR; lia]. apply (only_vec O4) in V3; [| apply RR; lia].
  apply (vdst_only O4) in R1.
  eapply oks_mono; [eapply normalize_ok; [lia | exact R1 | exact V4] |].
  intros [h5 q] (_ & V5 & O5). apply (only_vec O5) in V2; [| apply RR; lia]. apply (only_vec O5) in V3; [| apply RR; lia].
  split.
  - unfold Q. apply rows_mtx; [exact (proj1 Hv) |]. intros i Hi. unfold vectors3. cbv zeta.
    destruct (Nat.eqb_spec i 1) as [-> | N1]; [exact V5 |].
    destruct (Nat.eqb_spec i (most_distinct e)) as [-> | N2]; [exact V2 |].
    replace i with sd by (unfold sd; lia). exact V3.
  - change (only P h0 h5). eapply only_trans; [eapply only_trans; [eapply only_trans; [eapply only_trans |] |] |].
    + eapply only_more; [exact O1 | auto].
    + eapply only_more; [exact O2 | eauto].
    + eapply only_more; [exact O3 |]. intros s [Hs | Hs]; eauto.
    + eapply only_more; [exact O4 | eauto].
    + eapply only_more; [exact O5 | eauto].
Qed.

Definition vectors_of_3 (a : nat -> T) (i j : nat) : T :=
  let e := roots3 a in
  if fle fl (e 2 - e 0) (epsilon fl) then kronecker ar i j else vectors3 a e (e 2 - e 0) i j.
Lemma symEigenvectors3_ok h E V A x : vdst h E 3 -> mdst h V 3 3 -> vec h A 6 x ->
  apart (vslots E 3) (vslots A 6) -> apart (vslots E 3) (mslots V 3 3) -> apart (mslots V 3 3) (vslots A 6) ->
  oks (symEigenvectors3 ar fl chk E V A h) (fun '(h', _) =>
    vec h' E 3 (fun i => max_entry 3 (centred 3 x) * roots3 (shifted 3 x) i + mean 3 x) /\
    mtx h' V 3 3 (vectors_of_3 (shifted 3 x)) /\ only (fun s => vslots E 3 s \/ mslots V 3 3 s) h h').
Proof.
  intros Hd Hv HA A0 A1 A2. unfold symEigenvectors3. checks.
  pose proof (fresh_array_vdst (n:=6) Hd) as F1. pose proof (fresh_array_vec (n:=6) HA) as F2. pose proof (fresh_array_mdst (n:=6) Hv) as F3.
  set (Q := fun (h' : memory) (_ : unit) => vec h' E 3 (fun i => max_entry 3 (centred 3 x) * roots3 (shifted 3 x) i + mean 3 x) /\
    mtx h' V 3 3 (vectors_of_3 (shifted 3 x))).
  eapply oks_mono; [apply with_local_ok with (P := fun s => vslots E 3 s \/ mslots V 3 3 s) (Q := Q) |].
  2:{ intros [h' []] (O & h2 & (HQ1 & HQ2) & -> & L). split; [| split; [| exact O]]; [eapply vec_cut | eapply mtx_cut]; eauto. }
  pose proof (vdst_grow (repeat None 6) Hd) as Hd0. apply (vec_grow (repeat None 6)) in HA. pose proof (carray_dst h 6) as HF.
  pose proof (mdst_grow (repeat None 6) Hv) as Hv0.
  pose proof (@fresh_array_slots _ h 6) as FS.
  set (h0 := h ++ repeat None 6) in *. set (F := carray (length h) 6) in *. cbv zeta.
  eapply oks_bind; [eapply copy_ok; eauto |]. cbv beta. intros h1 (V1 & O1).
  carry O1. eapply oks_bind; [apply (@shiftAndScale_ok _ ar fl chk 3 h1 F x); auto; lia |]. intros [h2 [s m]] (-> & -> & V2 & O2).
  change (SYM_SIZE 3) with 6 in *. clear V1. carry O2.
  eapply oks_bind; [eapply eigenvaluesOfShiftedMatrix3_ok; eauto using apart_sym |]. cbv beta. intros h3 (V3 & O3). carry O3.
  eapply oks_bind; [apply oks_eq; evals | cbv beta; intros ? ->].
  eapply oks_bind with (P := fun h4 => mtx h4 V 3 3 (vectors_of_3 (shifted 3 x)) /\ only (mslots V 3 3) h3 h4).
  { unfold vectors_of_3. cbv zeta. destruct (fle fl _ _).
    - straight.
    - eapply oks_bind; [eapply eigenvectors3_ok; eauto using apart_sym |]. intros [h4 q] H4. apply oks_ok. exact H4. }
  intros h4 (V4 & O4). carry O4.
  eapply oks_bind; [eapply rescale3_ok; eauto |]. cbv beta. intros h5 (V5 & O5). carry O5. apply oks_ok. split; [split; assumption |].
  set (P := fun s => (vslots E 3 s \/ mslots V 3 3 s) \/ length h <= s).
  assert (forall s, vslots F 6 s -> P s) by (unfold P; auto).
  assert (forall s, vslots E 3 s -> P s) by (unfold P; auto).
  assert (forall s, mslots V 3 3 s -> P s) by (unfold P; auto).
  eapply only_trans; [eapply only_trans; [eapply only_trans; [eapply only_trans |] |] |]; eapply only_more; eauto.
Qed.
End Values.
