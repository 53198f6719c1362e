(** What the eigenvalue and eigenvector operations leave in the memory, as functions of the entries of the matrix. *)
From Coq Require Import List Arith Bool Lia.
From Verif Require Import Base BaseProofs Tensor TensorSpec TensorFixed TensorProofs TensorFixedProofs Eigen.
Import ListNotations.
Set Implicit Arguments.

Section Frame.
Variable T : Type.
Notation memory := (list (option T)).
Implicit Types h : memory.

Lemma un_ok (f : T -> T) (x : expr T) h a : x h = Ok a -> un f x h = Ok (f a).
Proof. intros E. unfold un. rewrite E. reflexivity. Qed.
Lemma vdst_only P h h' A n : only P h h' -> vdst h A n -> vdst h' A n.
Proof. intros (L & _) (a & b & c). split; [auto | split; auto]. intros i Hi. rewrite L. auto. Qed.
Lemma mdst_only P h h' A n m : only P h h' -> mdst h A n m -> mdst h' A n m.
Proof. intros (L & _) (a & b & c). split; [auto | split; auto]. intros i j Hi Hj. rewrite L. auto. Qed.
Lemma apart_sym (P Q : nat -> Prop) : apart P Q -> apart Q P.
Proof. intros H s A B. exact (H s B A). Qed.
Lemma apart_or (P Q R : nat -> Prop) : apart P R -> apart Q R -> apart (fun s => P s \/ Q s) R.
Proof. intros A B s [H | H] HR; [exact (A s H HR) | exact (B s H HR)]. Qed.
Lemma apart_row P V n m i : i < n -> apart P (mslots V n m) -> apart P (vslots (row V i) m).
Proof. intros Hi A s HP (j & Hj & E). apply (A s HP). exists i, j. auto. Qed.
Lemma apart_rows h V n m i j : mdst h V n m -> i < n -> j < n -> i <> j -> apart (vslots (row V i) m) (vslots (row V j) m).
Proof.
  intros (_ & _ & J) Hi Hj N s (k & Hk & E) (l & Hl & F). cbn in E, F. subst s.
  destruct (J j l i k); auto.
Qed.
Lemma row_slots V n m i s : i < n -> vslots (row V i) m s -> mslots V n m s.
Proof. intros Hi (j & Hj & E). exists i, j. auto. Qed.
Lemma row_vdst h V n m i : mdst h V n m -> i < n -> vdst h (row V i) m.
Proof.
  intros ((_ & C) & B & J) Hi. split; [exact C | split; cbn].
  - intros j Hj. auto.
  - intros j k Hj Hk E. destruct (J i j i k); auto.
Qed.
Lemma row_vec h V n m x i : mtx h V n m x -> i < n -> vec h (row V i) m (x i).
Proof. intros ((_ & C) & B) Hi. split; [exact C |]. intros j Hj. cbn. auto. Qed.
Lemma rows_mtx h V n m x : mrows V = n /\ mcols V = m -> (forall i, i < n -> vec h (row V i) m (x i)) -> mtx h V n m x.
Proof. intros C A. split; [exact C |]. intros i j Hi Hj. apply (proj2 (A i Hi) j Hj). Qed.

(** Local variables share no slot with what was there before. *)
Lemma fresh_array_vdst h A k n : vdst h A k -> apart (vslots (carray (length h) n) n) (vslots A k).
Proof. intros (_ & B & _) s (i & Hi & E) (j & Hj & F). cbn in E. specialize (B j Hj). lia. Qed.
Lemma fresh_array_vec h A k n x : vec h A k x -> apart (vslots (carray (length h) n) n) (vslots A k).
Proof. intros (_ & B) s (i & Hi & E) (j & Hj & F). cbn in E. pose proof (slot_lt _ _ (B j Hj)). lia. Qed.
Lemma fresh_array_mdst h A k l n : mdst h A k l -> apart (vslots (carray (length h) n) n) (mslots A k l).
Proof. intros (_ & B & _) s (i & Hi & E) (j & j' & Hj & Hj' & F). cbn in E. specialize (B j j' Hj Hj'). lia. Qed.
Lemma fresh_array_mtx h A k l n x : mtx h A k l x -> apart (vslots (carray (length h) n) n) (mslots A k l).
Proof. intros (_ & B) s (i & Hi & E) (j & j' & Hj & Hj' & F). cbn in E. pose proof (slot_lt _ _ (B j j' Hj Hj')). lia. Qed.
Lemma fresh_matrix_vdst h A k n m : vdst h A k -> apart (mslots (cmatrix (length h) n m) n m) (vslots A k).
Proof. intros (_ & B & _) s (i & i' & Hi & Hi' & E) (j & Hj & F). cbn in E. specialize (B j Hj). lia. Qed.
Lemma fresh_matrix_mdst h A k l n m : mdst h A k l -> apart (mslots (cmatrix (length h) n m) n m) (mslots A k l).
Proof. intros (_ & B & _) s (i & i' & Hi & Hi' & E) (j & j' & Hj & Hj' & F). cbn in E. specialize (B j j' Hj Hj'). lia. Qed.
Lemma fresh_array_slots h n s : vslots (carray (length h) n) n s -> length h <= s.
Proof. intros (i & Hi & E). cbn in E. lia. Qed.
Lemma fresh_matrix_slots h n m s : mslots (cmatrix (length h) n m) n m s -> length h <= s.
Proof. intros (i & j & Hi & Hj & E). cbn in E. lia. Qed.

Lemma with_local_ok A n (c : nat -> memory -> outcome (memory * A)) h (P : nat -> Prop) (Q : memory -> A -> Prop) :
  oks (c (length h) (h ++ repeat None n)) (fun '(h', r) => Q h' r /\ only (fun s => P s \/ length h <= s) (h ++ repeat None n) h') ->
  oks (with_local n c h) (fun '(h1, r) => only P h h1 /\
    exists h', Q h' r /\ h1 = firstn (length h) h' /\ length h' = length h + n).
Proof.
  intros H. unfold with_local. eapply oks_bind; [exact H |]. intros [h' r] (HQ & O). apply oks_ok.
  split; [eapply only_cut; exact O |]. exists h'. split; [exact HQ | split; [reflexivity |]].
  rewrite (proj1 O), app_length, repeat_length. reflexivity.
Qed.
End Frame.

Ltac evals := repeat first
  [ eapply un_ok | eapply bin_ok | apply lit_ok
  | match goal with S : vstate _ ?D _ _ ?h |- vx ?D _ ?h = _ => eapply vstate_at; [exact S | lia | reflexivity] end
  | match goal with S : mstate _ ?D _ _ _ ?h |- mx ?D _ _ ?h = _ => eapply mstate_at; [exact S | lia | lia | reflexivity] end
  | match goal with V : vec ?h ?A _ _ |- vx ?A _ ?h = _ => eapply vec_at; [exact V | lia] end
  | match goal with V : mtx ?h ?A _ _ _ |- mx ?A _ _ ?h = _ => eapply mtx_at; [exact V | lia | lia] end
  | match goal with V : vec _ ?A _ _, S : vstate _ _ _ _ ?h |- vx ?A _ ?h = _ =>
      eapply vec_at; [eapply only_vec; [exact (vstate_only S) | | exact V]; assumption | lia] end
  | match goal with V : vec _ ?A _ _, S : mstate _ _ _ _ _ ?h |- vx ?A _ ?h = _ =>
      eapply vec_at; [eapply only_vec; [exact (mstate_only S) | | exact V]; assumption | lia] end ].
Ltac assigns1 := match goal with
  | S : vstate _ _ _ _ ?h |- oks (assign_at _ _ ?h) _ => eapply vassign; [eassumption | exact S | lia | evals]
  | S : mstate _ _ _ _ _ ?h |- oks (assign_at _ _ ?h) _ => eapply massign; [eassumption | exact S | lia | lia | evals] end.
Ltac assigns := repeat match goal with
  | |- oks (andthen _ _ ?h) _ =>
      eapply andthen_ok; [assigns1 |];
      let h' := fresh "h" in let S' := fresh "S" in intros h' S';
      match goal with S : vstate _ _ _ _ h |- _ => clear S | S : mstate _ _ _ _ _ h |- _ => clear S end
  | |- oks (assign_at _ _ _) _ => eapply oks_mono; [assigns1 |]
  end.
Ltac finish := cbv beta; let h' := fresh "h" in let S := fresh "S" in intros h' S; split;
  [ first [ eapply vstate_vec; [eassumption | exact S |] | eapply mstate_mtx; [eassumption | exact S |] ]
  | exact (proj1 S) ]; each_index; try reflexivity.
Ltac start := checks;
  match goal with
  | |- oks (andthen (assign_at (vat ?D _) _) _ ?h) _ => match goal with Hd : vdst h D _, V : vec h D _ _ |- _ => pose proof (vstate_known V) | Hd : vdst h D ?n |- _ => pose proof (vstate_start h D n) end
  | |- oks (andthen (assign_at (mat ?D _ _) _) _ ?h) _ => match goal with Hd : mdst h D _ _, V : mtx h D _ _ _ |- _ => pose proof (mstate_known V) | Hd : mdst h D ?n ?m |- _ => pose proof (mstate_start h D n m) end
  end.
Ltac straight := start; assigns; finish.
(** Everything known about the operands that were not written holds in the new memory. *)
Ltac carry O := match type of O with only ?P ?h ?h' =>
  repeat match goal with
  | V : vec h ?A _ _ |- _ => apply (only_vec O) in V; [| solve [eauto using apart_sym, apart_row, apart_or]]
  | V : mtx h ?A _ _ _ |- _ => apply (only_mtx O) in V; [| solve [eauto using apart_sym, apart_row, apart_or]]
  | V : vdst h ?A _ |- _ => apply (vdst_only O) in V
  | V : mdst h ?A _ _ |- _ => apply (mdst_only O) in V end end.

Section Values.
Variable T : Type.
Variable ar : arith T.
Variable fl : floating T.
Variable chk : bool.
Notation memory := (list (option T)).
Implicit Types h : memory.
Notation "x + y" := (add ar x y).
Notation "x - y" := (sub ar x y).
Notation "x * y" := (mul ar x y).
Notation "x / y" := (div ar x y).
Notation neg x := (opp ar x).
Notation num := (number ar).
Notation "x > y" := (fgt fl x y).

(** ** shiftAndScale *)
Definition add_identity (n : nat) (x : nat -> T) (s : T) (i : nat) : T := if i <? n then x i + s else x i.
Definition mean (n : nat) (x : nat -> T) : T := sum ar n x / num n.
Definition centred (n : nat) (x : nat -> T) : nat -> T := add_identity n x (neg (mean n x)).
Definition max_entry (n : nat) (x : nat -> T) : T :=
  fold_left (fun m y => fmax fl m (fabs fl y)) (map x (seq 0 (SYM_SIZE n))) (fabs fl (x 0)).
Definition scaled (n : nat) (x : nat -> T) (i : nat) : T :=
  if max_entry n x > zero ar then x i * (one ar / max_entry n x) else x i.
Definition shifted (n : nat) (x : nat -> T) : nat -> T := centred n (scaled n (centred n x)).

Lemma shiftAndScale_ok M h D x : 0 < M -> vdst h D (SYM_SIZE M) -> vec h D (SYM_SIZE M) x ->
  oks (shiftAndScale ar fl chk M D h) (fun '(h', (shift, m)) => shift = mean M x /\ m = max_entry M (centred M x) /\
    vec h' D (SYM_SIZE M) (shifted M x) /\ only (vslots D (SYM_SIZE M)) h h').
Proof.
  intros HM Hd V. pose proof (SYM_SIZE_ge M) as G. unfold shiftAndScale.
  rewrite (symTrace_ok _ chk HM V). cbn [bind]. cbv zeta.
  eapply oks_bind; [eapply symAddIdentity_ok; eassumption |]. cbv beta. intros h1 (V1 & O1).
  change (vec h1 D (SYM_SIZE M) (centred M x)) in V1.
  erewrite maxAbsoluteEntry_ok; [| lia | exact V1]. cbn [bind]. fold (max_entry M (centred M x)).
  pose proof (vdst_only O1 Hd) as Hd1.
  eapply oks_bind with (P := fun h2 => vec h2 D (SYM_SIZE M) (scaled M (centred M x)) /\ only (vslots D (SYM_SIZE M)) h1 h2).
  { unfold scaled. destruct (max_entry M (centred M x) > zero ar).
    - eapply oks_mono; [eapply scale_ok; [exact Hd1 | exact V1] |]. auto.
    - apply oks_ok. split; [exact V1 | apply only_refl]. }
  intros h2 (V2 & O2). rewrite (symTrace_ok _ chk HM V2). cbn [bind].
  eapply oks_bind; [eapply symAddIdentity_ok; [exact (vdst_only O2 Hd1) | exact V2] |]. cbv beta. intros h3 (V3 & O3).
  apply oks_ok. split; [reflexivity | split; [reflexivity | split; [exact V3 |]]].
  eapply only_trans; [eapply only_trans |]; eauto.
Qed.

(** ** 2x2 *)
Definition roots2 (a : nat -> T) (i : nat) : T :=
  let r := fsqrt fl (a 2 * a 2 - a 0 * a 1) in if i =? 1 then r else neg r.
Lemma eigenvaluesOfShiftedMatrix2_ok h E A x : vdst h E 2 -> vec h A 3 x -> apart (vslots E 2) (vslots A 3) ->
  oks (eigenvaluesOfShiftedMatrix2 ar fl E A h) (fun h' => vec h' E 2 (roots2 x) /\ only (vslots E 2) h h').
Proof. intros. unfold eigenvaluesOfShiftedMatrix2. straight. Qed.
Lemma rescale2_ok h E x s m : vdst h E 2 -> vec h E 2 x ->
  oks (rescale2 ar E s m h) (fun h' => vec h' E 2 (fun i => x i * m + s) /\ only (vslots E 2) h h').
Proof. intros. unfold rescale2. straight. Qed.

Definition vectors2 (f : nat -> T) (i j : nat) : T :=
  let a2 := f 0 * f 0 in let c2 := f 1 * f 1 in let b2 := f 2 * f 2 in
  let p := if a2 > c2 then neg (f 2) * finvSqrt fl (a2 + b2) else neg (f 1) * finvSqrt fl (c2 + b2) in
  let q := if a2 > c2 then f 0 * finvSqrt fl (a2 + b2) else f 2 * finvSqrt fl (c2 + b2) in
  match i, j with 0, 0 => neg q | 0, _ => p | _, 0 => p | _, _ => q end.
Lemma eigenvectors2_ok h E V F e f : mdst h V 2 2 -> vec h E 2 e -> vdst h F 3 -> vec h F 3 f ->
  apart (mslots V 2 2) (vslots F 3) ->
  oks (eigenvectors2 ar fl chk E V F h) (fun h' => mtx h' V 2 2 (vectors2 (add_identity 2 f (neg (e 1)))) /\
    only (fun s => mslots V 2 2 s \/ vslots F 3 s) h h').
Proof.
  intros Hd HE HF VF A. unfold eigenvectors2. rewrite (@vec_at _ _ _ _ _ 1 HE) by lia. cbn [bind].
  eapply oks_bind; [apply (@symAddIdentity_ok _ ar chk h 2 F f); assumption |]. cbv beta. intros h1 (V1 & O1).
  change (SYM_SIZE 2) with 3 in *. clear VF. apply (mdst_only O1) in Hd.
  change (vec h1 F 3 (add_identity 2 f (neg (e 1)))) in V1. set (g := add_identity 2 f (neg (e 1))) in *.
  eapply oks_bind; [apply oks_eq; evals | cbv beta; intros ? ->].
  eapply oks_bind; [apply oks_eq; evals | cbv beta; intros ? ->].
  eapply oks_bind; [apply oks_eq; evals | cbv beta; intros ? ->].
  eapply oks_mono with (P := fun h' => mtx h' V 2 2 (vectors2 g) /\ only (mslots V 2 2) h1 h').
  2:{ intros h' (M & O). split; [exact M |]. eapply only_trans; eapply only_more; eauto. }
  unfold vectors2. destruct (g 0 * g 0 > g 1 * g 1); cbv zeta.
  all: pose proof (mstate_start h1 V 2 2) as S0; eapply oks_bind; [assigns; intros ? S1; exact S1 |]; cbv beta;
    intros h2 S2; clear S0; assigns; finish.
Qed.

Lemma check1_pass n v : vlen v = n -> check1 chk n v = Ok tt.
Proof. apply check1_ok. Qed.

Lemma symEigenvalues2_ok h E A x : vdst h E 2 -> vec h A 3 x -> apart (vslots E 2) (vslots A 3) ->
  oks (symEigenvalues2 ar fl chk E A h) (fun '(h', _) =>
    vec h' E 2 (fun i => roots2 (shifted 2 x) i * max_entry 2 (centred 2 x) + mean 2 x) /\ only (vslots E 2) h h').
Proof.
  intros Hd V A0. unfold symEigenvalues2. checks.
  pose proof (fresh_array_vdst (n:=3) Hd) as F1. pose proof (fresh_array_vec (n:=3) V) as F2.
  set (Q := fun (h' : memory) (_ : unit) => vec h' E 2 (fun i => roots2 (shifted 2 x) i * max_entry 2 (centred 2 x) + mean 2 x)).
  eapply oks_mono; [apply with_local_ok with (P := vslots E 2) (Q := Q) |].
  2:{ intros [h' []] (O & h2 & HQ & -> & L). split; [| exact O]. eapply vec_cut; eauto. }
  pose proof (vdst_grow (repeat None 3) Hd) as Hd0. apply (vec_grow (repeat None 3)) in V. pose proof (carray_dst h 3) as HF.
  pose proof (@fresh_array_slots _ h 3) as FS.
  set (h0 := h ++ repeat None 3) in *. set (F := carray (length h) 3) in *. cbv zeta.
  eapply oks_bind; [eapply copy_ok; eauto |]. cbv beta. intros h1 (V1 & O1).
  carry O1. eapply oks_bind; [apply (@shiftAndScale_ok 2 h1 F x); auto; lia |]. intros [h2 [s m]] (-> & -> & V2 & O2).
  change (SYM_SIZE 2) with 3 in *. clear V1. carry O2.
  eapply oks_bind; [eapply eigenvaluesOfShiftedMatrix2_ok; eauto using apart_sym |]. cbv beta. intros h3 (V3 & O3). carry O3.
  eapply oks_bind; [eapply rescale2_ok; eauto |]. cbv beta. intros h4 (V4 & O4). apply oks_ok. split; [exact V4 |].
  assert (forall s, vslots F 3 s -> vslots E 2 s \/ length h <= s) by auto.
  eapply only_trans; [eapply only_trans; [eapply only_trans |] |]; eapply only_more; eauto.
Qed.

Definition vectors_of_2 (a : nat -> T) (i j : nat) : T :=
  let e := roots2 a in
  if fle fl (e 1 - e 0) (epsilon fl) then kronecker ar i j else vectors2 (add_identity 2 a (neg (e 1))) i j.
Lemma symEigenvectors2_ok h E V A x : vdst h E 2 -> mdst h V 2 2 -> vec h A 3 x ->
  apart (vslots E 2) (vslots A 3) -> apart (vslots E 2) (mslots V 2 2) -> apart (mslots V 2 2) (vslots A 3) ->
  oks (symEigenvectors2 ar fl chk E V A h) (fun '(h', _) =>
    vec h' E 2 (fun i => roots2 (shifted 2 x) i * max_entry 2 (centred 2 x) + mean 2 x) /\
    mtx h' V 2 2 (vectors_of_2 (shifted 2 x)) /\ only (fun s => vslots E 2 s \/ mslots V 2 2 s) h h').
Proof.
  intros Hd Hv HA A0 A1 A2. unfold symEigenvectors2. checks.
  pose proof (fresh_array_vdst (n:=3) Hd) as F1. pose proof (fresh_array_vec (n:=3) HA) as F2. pose proof (fresh_array_mdst (n:=3) Hv) as F3.
  set (Q := fun (h' : memory) (_ : unit) => vec h' E 2 (fun i => roots2 (shifted 2 x) i * max_entry 2 (centred 2 x) + mean 2 x) /\
    mtx h' V 2 2 (vectors_of_2 (shifted 2 x))).
  eapply oks_mono; [apply with_local_ok with (P := fun s => vslots E 2 s \/ mslots V 2 2 s) (Q := Q) |].
  2:{ intros [h' []] (O & h2 & (HQ1 & HQ2) & -> & L). split; [| split; [| exact O]]; [eapply vec_cut | eapply mtx_cut]; eauto. }
  pose proof (vdst_grow (repeat None 3) Hd) as Hd0. apply (vec_grow (repeat None 3)) in HA. pose proof (carray_dst h 3) as HF.
  pose proof (mdst_grow (repeat None 3) Hv) as Hv0.
  pose proof (@fresh_array_slots _ h 3) as FS.
  set (h0 := h ++ repeat None 3) in *. set (F := carray (length h) 3) in *. cbv zeta.
  eapply oks_bind; [eapply copy_ok; eauto |]. cbv beta. intros h1 (V1 & O1).
  carry O1. eapply oks_bind; [apply (@shiftAndScale_ok 2 h1 F x); auto; lia |]. intros [h2 [s m]] (-> & -> & V2 & O2).
  change (SYM_SIZE 2) with 3 in *. clear V1. carry O2.
  eapply oks_bind; [eapply eigenvaluesOfShiftedMatrix2_ok; eauto using apart_sym |]. cbv beta. intros h3 (V3 & O3). carry O3.
  eapply oks_bind; [apply oks_eq; evals | cbv beta; intros ? ->].
  eapply oks_bind with (P := fun h4 => mtx h4 V 2 2 (vectors_of_2 (shifted 2 x)) /\ only (fun s => mslots V 2 2 s \/ vslots F 3 s) h3 h4).
  { unfold vectors_of_2. destruct (fle fl _ _).
    - eapply oks_mono with (P := fun h' => mtx h' V 2 2 (kronecker ar) /\ only (mslots V 2 2) h3 h'); [straight |].
      intros h' (? & ?). split; [assumption |]. eapply only_more; eauto.
    - eapply eigenvectors2_ok; eauto using apart_sym. }
  intros h4 (V4 & O4). clear V2. assert (AE : apart (fun s => mslots V 2 2 s \/ vslots F 3 s) (vslots E 2)) by eauto using apart_or, apart_sym.
  carry O4.
  eapply oks_bind; [eapply rescale2_ok; eauto |]. cbv beta. intros h5 (V5 & O5). carry O5. apply oks_ok. split; [split; assumption |].
  set (P := fun s => (vslots E 2 s \/ mslots V 2 2 s) \/ length h <= s).
  assert (forall s, vslots F 3 s -> P s) by (unfold P; auto).
  assert (forall s, vslots E 2 s -> P s) by (unfold P; auto).
  assert (forall s, mslots V 2 2 s \/ vslots F 3 s -> P s) by (unfold P; intros ? [|]; auto).
  eapply only_trans; [eapply only_trans; [eapply only_trans; [eapply only_trans |] |] |]; eapply only_more; eauto.
Qed.
End Values.
