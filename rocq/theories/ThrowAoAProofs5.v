(** The calls that may throw do what the calls of AoA.v do until something throws: any object, any arguments. *)
From Coq Require Import List Arith ZArith Lia Bool.
From Verif Require Import Base BaseProofs Mem BufferManip AoA AoACopy Throw ThrowAoA.
From Verif Require ArrayManip.
Import ListNotations.
Set Implicit Arguments.
Unset Strict Implicit.

Definition sim {A X} (x : xout A X) (m : outcome A) : Prop :=
  match x with
  | XOk _ a => m = Ok a
  | XThrow Element _ => True
  | XThrow Error _ => m = Abort
  | XFault f => m = Fault f
  end.
Lemma sim_lift {A X} n (x : X) (m : outcome A) : sim (xlift n x m) m.
Proof. destruct m; reflexivity. Qed.
Lemma sim_left {A X Y} (f : X -> Y) (x : xout A X) m : sim x m -> sim (xleft f x) m.
Proof. destruct x as [| []|]; auto. Qed.
Lemma sim_bind {A B X} (x : xout A X) m (k : nat -> A -> xout B X) (k' : A -> outcome B) :
  sim x m -> (forall n a, sim (k n a) (k' a)) -> sim (xbind x k) (bind m k').
Proof. destruct x as [n a|[] t|f]; cbn; intros H K; try rewrite H; cbn; auto. Qed.
Lemma sim_eq {A X} (x : xout A X) m m' : m = m' -> sim x m -> sim x m'.
Proof. intros ->. auto. Qed.
Lemma sim_for {St X} k : forall (fx : nat -> nat -> St -> xout St X) f i n s, (forall i n s, sim (fx i n s) (f i s)) -> sim (xfor_up k fx i n s) (for_up k f i s).
Proof.
  induction k as [|k IH]; intros fx f i n s H; cbn [xfor_up for_up]; [reflexivity|]. apply sim_bind; auto.
Qed.

Section Sim.
Variable V : Type.
Variable chk tv : bool.
Notation aoa := (aoa V unit).
Implicit Types a : aoa.

Lemma sim_construct n (b : buf V) i v : sim (x_construct tv n b i v) (construct tv b i v).
Proof. unfold x_construct. destruct tv; [apply sim_lift|]. destruct n; [exact I|apply sim_lift]. Qed.
Lemma sim_copy vs : forall n (b : buf V) p, sim (x_uninitializedCopy tv vs n b p) (ArrayManip.uninitializedCopy tv vs b p).
Proof.
  induction vs as [|v vs IH]; intros n b p; cbn [x_uninitializedCopy ArrayManip.uninitializedCopy]; [reflexivity|].
  apply sim_bind; [apply sim_construct|auto].
Qed.
Lemma append_copy vs : forall (b : buf V) p s i,
  ArrayManip.append_loop tv b p s i vs = (b' <- ArrayManip.uninitializedCopy tv vs b (p + s + i) ;; Ok (b', i + length vs)).
Proof.
  induction vs as [|v vs IH]; intros b p s i; cbn [ArrayManip.append_loop ArrayManip.uninitializedCopy bind length].
  - rewrite Nat.add_0_r. reflexivity.
  - destruct (construct tv b (p + s + i) v) as [b1| |]; cbn [bind]; auto. rewrite IH.
    replace (p + s + (i + 1)) with (p + s + i + 1) by lia.
    destruct (ArrayManip.uninitializedCopy tv vs b1 (p + s + i + 1)); cbn [bind]; auto. do 2 f_equal. lia.
Qed.
Lemma bind_bind {A B C} (m : outcome A) (f : A -> outcome B) (g : B -> outcome C) : bind (bind m f) g = bind m (fun x => bind (f x) g).
Proof. destruct m; reflexivity. Qed.

Lemma sim_put n a b i s : sim (x_put_size n a b i s) (put_size (set_vals b a) i s).
Proof. apply sim_lift. Qed.

Lemma sim_v_emplaceBack n a i v : sim (x_v_emplaceBack chk tv n a i v) (v_emplaceBack chk tv a i v).
Proof.
  unfold x_v_emplaceBack, v_emplaceBack.
  eapply sim_eq; [|eapply sim_bind with (k' := fun o => s <- sizeOfArray chk a i ;; b <- construct tv (vals a) (o + s) v ;; put_size (set_vals b a) i (s + 1)); [apply sim_lift|]].
  - rewrite !bind_bind. destruct (check_array chk a i) as [[]| |]; cbn [bind]; rewrite ?bind_bind; auto.
  - intros n1 o. apply sim_bind; [apply sim_lift|]. intros n2 s. apply sim_bind; [apply sim_left, sim_construct|]. intros. apply sim_put.
Qed.
Lemma sim_v_append n a i vs : sim (x_v_appendToArray chk tv n a i vs) (v_appendToArray chk tv a i vs).
Proof.
  unfold x_v_appendToArray, v_appendToArray.
  eapply sim_eq; [|eapply sim_bind with (k' := fun o => s <- sizeOfArray chk a i ;; b <- ArrayManip.uninitializedCopy tv vs (vals a) (o + s) ;;
     _ <- check_capacity chk (set_vals b a) i (length vs) ;; put_size (set_vals b a) i (s + length vs)); [apply sim_lift|]].
  - rewrite !bind_bind. destruct (check_array chk a i) as [[]| |]; cbn [bind]; auto.
    destruct (offset a i) as [o| |]; cbn [bind]; auto. destruct (sizeOfArray chk a i) as [s| |]; cbn [bind]; auto.
    unfold ArrayManip.append. rewrite append_copy, bind_bind, Nat.add_0_r. reflexivity.
  - intros n1 o. apply sim_bind; [apply sim_lift|]. intros n2 s. apply sim_bind; [apply sim_left, sim_copy|]. intros n3 b.
    apply sim_bind; [apply sim_lift|]. intros. apply sim_put.
Qed.
Lemma sim_v_emplace n a i j v : sim (x_v_emplace chk tv n a i j v) (v_emplace chk tv a i j v).
Proof.
  unfold x_v_emplace, v_emplace.
  eapply sim_eq; [|eapply sim_bind with (k' := fun o => s <- sizeOfArray chk a i ;; b <- ArrayManip.emplace chk tv (vals a) o s j v ;; put_size (set_vals b a) i (s + 1)); [apply sim_lift|]].
  - rewrite !bind_bind. destruct (check_array_insert2 chk a i j) as [[]| |]; cbn [bind]; rewrite ?bind_bind; auto.
  - intros n1 o. apply sim_bind; [apply sim_lift|]. intros n2 s. apply sim_bind; [apply sim_left|intros; apply sim_put].
    unfold x_am_emplace, ArrayManip.emplace. apply sim_bind; [apply sim_lift|]. intros. apply sim_bind; [apply sim_lift|]. intros. apply sim_construct.
Qed.
Lemma sim_v_insert n a i j vs : sim (x_v_insertIntoArray chk tv n a i j vs) (v_insertIntoArray chk tv a i j vs).
Proof.
  unfold x_v_insertIntoArray, v_insertIntoArray.
  eapply sim_eq; [|eapply sim_bind with (k' := fun o => s <- sizeOfArray chk a i ;; b <- ArrayManip.insert chk tv (vals a) o s j vs ;; put_size (set_vals b a) i (s + length vs)); [apply sim_lift|]].
  - rewrite !bind_bind. destruct (check_array_insert2 chk a i j) as [[]| |]; cbn [bind]; rewrite ?bind_bind; auto.
  - intros n1 o. apply sim_bind; [apply sim_lift|]. intros n2 s. apply sim_bind; [apply sim_left|intros; apply sim_put].
    unfold x_am_insert, ArrayManip.insert. apply sim_bind; [apply sim_lift|]. intros. apply sim_bind; [apply sim_lift|]. intros. apply sim_copy.
Qed.
Lemma sim_set n a i j v : sim (x_aoa_set chk tv n a i j v) (aoa_set chk tv a i j v).
Proof.
  unfold x_aoa_set, aoa_set. apply sim_bind; [apply sim_lift|]. intros n1 k. apply sim_bind; [|intros; reflexivity]. apply sim_left.
  unfold x_assign. destruct tv; [apply sim_lift|]. destruct n1; [exact I|apply sim_lift].
Qed.
Lemma sim_append n a i vs : sim (x_aoa_appendToArray chk tv n a i vs) (aoa_appendToArray chk tv true false BMalloc a i vs).
Proof. unfold x_aoa_appendToArray, aoa_appendToArray. apply sim_bind; [apply sim_lift|]. intros. apply sim_v_append. Qed.
Lemma sim_resizeArray n a i m v : sim (x_resizeArray chk tv n a i m v) (resizeArray chk tv true false BMalloc a i m v).
Proof.
  unfold x_resizeArray, resizeArray.
  eapply sim_eq; [apply bind_bind|]. apply sim_bind; [apply sim_lift|]. intros n1 c.
  apply sim_bind; [destruct (c <? m); [apply sim_lift|reflexivity]|]. intros n2 a1. apply sim_bind; [apply sim_lift|]. intros n3 ps.
  eapply sim_eq; [apply bind_bind|]. apply sim_bind; [apply sim_lift|]. intros n4 o. apply sim_bind; [apply sim_left|intros; apply sim_put].
  unfold x_am_resize, ArrayManip.resize. apply sim_bind; [apply sim_lift|]. intros. apply sim_for. intros. apply sim_construct.
Qed.

Theorem sim_step dflt n c a : sim (x_astep chk tv dflt n c a) (astep chk tv true false BMalloc dflt c a).
Proof.
  destruct c; cbn [x_astep]; try apply sim_lift; cbn [astep].
  - unfold x_appendArray, appendArray. apply sim_bind; [apply sim_lift|]. intros. apply sim_resizeArray.
  - unfold x_appendArrayFrom, appendArrayFrom. apply sim_bind; [apply sim_lift|]. intros. apply sim_append.
  - unfold x_insertArray, insertArray. apply sim_bind; [apply sim_lift|]. intros. apply sim_append.
  - unfold x_aoa_emplaceBack, aoa_emplaceBack. apply sim_bind; [apply sim_lift|]. intros. apply sim_v_emplaceBack.
  - apply sim_append.
  - unfold x_aoa_emplace, aoa_emplace. apply sim_bind; [apply sim_lift|]. intros. apply sim_v_emplace.
  - unfold x_aoa_insertIntoArray, aoa_insertIntoArray. apply sim_bind; [apply sim_lift|]. intros. apply sim_v_insert.
  - apply sim_resizeArray.
  - apply sim_set.
Qed.

Theorem sim_setEqualTo n a src : sim (x_setEqualTo chk tv n a src) (setEqualTo chk tv true false a src).
Proof.
  unfold x_setEqualTo. eapply sim_eq with (m := (a4 <- (
    srcMaxOffset <- offset src (numArrays src) ;;
    a1 <- destroyValues chk tv true false a 0 (numArrays a) ;;
    let offsetsSize := if numArrays a =? 0 then 0 else numArrays a + 1 in
    o <- copyInto chk true BMalloc (offs a1) offsetsSize (offs src) (numArrays src + 1) 0 ;;
    s <- copyInto chk true BMalloc (szs a1) (numArrays a) (szs src) (numArrays src) 0 ;;
    let a2 := set_szs s (set_offs o a1) in
    maxOffset <- offset a2 (numArrays a) ;;
    a3 <- each tv true false (fun A t b => BufferManip.reserve chk t BMalloc b maxOffset srcMaxOffset) a2 ;;
    Ok (set_num (numArrays src) a3)) ;; b <- copy_rows chk a4 (copy_row tv (vals src)) (vals a4) ;; Ok (set_vals b a4))).
  - unfold setEqualTo.
    destruct (offset src (numArrays src)) as [mo| |]; cbn [bind]; auto.
    destruct (destroyValues chk tv true false a 0 (numArrays a)) as [a1| |]; cbn [bind]; auto.
    destruct (copyInto chk true BMalloc (offs a1) _ (offs src) _ 0) as [o| |]; cbn [bind]; auto.
    destruct (copyInto chk true BMalloc (szs a1) _ (szs src) _ 0) as [z| |]; cbn [bind]; auto. cbv zeta.
    destruct (offset (set_szs z (set_offs o a1)) (numArrays a)) as [mx| |]; cbn [bind]; auto.
    destruct (each tv true false _ _) as [a3| |]; cbn [bind]; auto.
  - apply sim_bind; [apply sim_lift|]. intros n1 a4. apply sim_bind; [apply sim_left|reflexivity].
    unfold x_copy_rows, copy_rows. apply sim_for. intros i n2 b. apply sim_bind; [apply sim_lift|]. intros n3 o. apply sim_bind; [apply sim_lift|].
    intros n4 s. unfold x_copy_row, copy_row. apply sim_for. intros. apply sim_bind; [apply sim_lift|]. intros. apply sim_construct.
Qed.
End Sim.
