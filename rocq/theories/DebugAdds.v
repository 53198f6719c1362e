(** A debug build computes what the build without assertions computes, or stops in an assertion. *)
From Coq Require Import List Arith ZArith Lia Bool.
From Verif Require Import Base Mem BufferManip Debug.
From Verif Require ArrayManip Array AoA.
Import ListNotations.
Set Implicit Arguments.

Definition adds {A} (m m' : outcome A) : Prop := m' = m \/ m' = Abort.
Lemma adds_refl A (m : outcome A) : adds m m.
Proof. left. reflexivity. Qed.
Lemma adds_bind A B (m m' : outcome A) (k k' : A -> outcome B) :
  adds m m' -> (forall x, adds (k x) (k' x)) -> adds (bind m k) (bind m' k').
Proof. intros [-> | ->] K; [ destruct m; simpl; [ apply K | left | left ]; reflexivity | right; reflexivity ]. Qed.
Lemma adds_assert A dbg c (m m' : outcome A) : adds m m' -> adds m (_ <- assert_ dbg c ;; m').
Proof. intros H. unfold assert_, check_if. destruct (dbg && negb c); simpl; [ right; reflexivity | exact H ]. Qed.
Lemma adds_up S n (f f' : nat -> S -> outcome S) : (forall i s, adds (f i s) (f' i s)) -> forall i s, adds (for_up n f i s) (for_up n f' i s).
Proof. intros H. induction n; intros i s; simpl; [ apply adds_refl | ]. apply adds_bind; [ apply H | intros; apply IHn ]. Qed.
Lemma adds_down S n (f f' : nat -> S -> outcome S) : (forall i s, adds (f i s) (f' i s)) -> forall s, adds (for_down n f s) (for_down n f' s).
Proof. intros H. induction n; intros s; simpl; [ apply adds_refl | ]. apply adds_bind; [ apply H | intros; apply IHn ]. Qed.
Lemma adds_each V W tv tw dual (f f' : forall A, bool -> buf A -> outcome (buf A)) (a : AoA.aoa V W) :
  (forall A t b, adds (f A t b) (f' A t b)) -> adds (AoA.each tv tw dual f a) (AoA.each tv tw dual f' a).
Proof.
  intros H. unfold AoA.each. apply adds_bind; [ apply H | ]. intros v. apply adds_bind; [ | intros; apply adds_refl ].
  destruct dual; [ apply H | apply adds_refl ].
Qed.

Ltac ad := match goal with
  | |- adds ?x ?x => apply adds_refl
  | |- adds _ (bind (assert_ _ _) _) => apply adds_assert
  | |- adds (bind _ _) (bind _ _) => apply adds_bind; [ | intros ]
  | |- adds (for_up _ _ _ _) _ => apply adds_up; intros
  | |- adds (for_down _ _ _) _ => apply adds_down; intros
  | |- adds (AoA.each _ _ _ _ _) _ => apply adds_each; intros
  | |- adds (let '(_, _) := ?x in _) _ => destruct x
  | |- adds (match ?x with BMalloc => _ | BStack _ => _ end) _ => destruct x eqn:?
  | |- adds (if ?x then _ else _) _ => destruct x
  | |- adds _ _ => solve [ eauto with adds ]
  end.
Ltac ads := repeat ad.

Section All.
Variables dbg chk : bool.
Variable kind : bkind.
Section AM.
Variable V : Type.
Variable t : bool.
Implicit Types b : buf V.
Lemma s_destroy b p n : adds (ArrayManip.destroy t b p n) (d_destroy dbg kind t b p n).
Proof. unfold d_destroy. ads. Qed.
Hint Resolve s_destroy : adds.
Lemma s_uninitializedMove b p n (s : buf V) q : adds (ArrayManip.uninitializedMove t b p n s q) (d_uninitializedMove dbg kind t b p n s q).
Proof. unfold d_uninitializedMove. ads. Qed.
Lemma s_uninitializedShiftDown b p n k : adds (ArrayManip.uninitializedShiftDown t b p n k) (d_uninitializedShiftDown dbg kind t b p n k).
Proof. unfold d_uninitializedShiftDown. ads. Qed.
Lemma s_uninitializedShiftUp b p n k : adds (ArrayManip.uninitializedShiftUp t b p n k) (d_uninitializedShiftUp dbg kind t b p n k).
Proof. unfold d_uninitializedShiftUp. ads. Qed.
Lemma s_resize b p n m v : adds (ArrayManip.resize t b p n m v) (d_resize dbg kind t b p n m v).
Proof. unfold ArrayManip.resize, d_resize. ads. Qed.
Lemma s_shiftUp b p s i n : adds (ArrayManip.shiftUp chk t b p s i n) (d_shiftUp dbg chk kind t b p s i n).
Proof. unfold ArrayManip.shiftUp, d_shiftUp. ads. Qed.
Lemma s_shiftDown b p s i n : adds (ArrayManip.shiftDown chk t b p s i n) (d_shiftDown dbg chk kind t b p s i n).
Proof. unfold ArrayManip.shiftDown, d_shiftDown. ads. Qed.
Hint Resolve s_shiftUp s_shiftDown s_uninitializedMove : adds.
Lemma s_erase b p s i n : adds (ArrayManip.erase chk t b p s i n) (d_erase dbg chk kind t b p s i n).
Proof. unfold ArrayManip.erase, d_erase. ads. Qed.
Lemma s_emplaceBack b p n v : adds (ArrayManip.emplaceBack t b p n v) (d_emplaceBack dbg kind t b p n v).
Proof. unfold d_emplaceBack. ads. Qed.
Lemma s_append b p n vs : adds (ArrayManip.append t b p n vs) (d_append dbg kind t b p n vs).
Proof. unfold d_append. ads. Qed.
Lemma s_emplace b p n i v : adds (ArrayManip.emplace chk t b p n i v) (d_emplace dbg chk kind t b p n i v).
Proof. unfold ArrayManip.emplace, d_emplace. ads. Qed.
Lemma s_insert b p n i vs : adds (ArrayManip.insert chk t b p n i vs) (d_insert dbg chk kind t b p n i vs).
Proof. unfold ArrayManip.insert, d_insert. ads. Qed.
Lemma s_popBack b p n : adds (ArrayManip.popBack t b p n) (d_popBack dbg kind t b p n).
Proof. unfold ArrayManip.popBack, d_popBack. ads. Qed.
Hint Resolve s_resize s_erase s_emplaceBack s_emplace s_insert s_popBack : adds.
Lemma s_reallocate b n m : adds (BufferManip.reallocate t kind b n m) (b_reallocate dbg kind t b n m).
Proof. unfold BufferManip.reallocate, b_reallocate. destruct kind eqn:K; [ rewrite <- K | apply adds_refl ]. ads. Qed.
Hint Resolve s_reallocate : adds.
Lemma s_free b n : adds (BufferManip.free chk t kind b n) (b_free dbg chk kind t b n).
Proof. unfold BufferManip.free, b_free. ads. Qed.
Lemma s_setCapacity b n m : adds (BufferManip.setCapacity chk t kind b n m) (b_setCapacity dbg chk kind t b n m).
Proof. unfold BufferManip.setCapacity, b_setCapacity. ads. Qed.
Hint Resolve s_setCapacity : adds.
Lemma s_reserve b n m : adds (BufferManip.reserve chk t kind b n m) (b_reserve dbg chk kind t b n m).
Proof. unfold BufferManip.reserve, b_reserve. ads. Qed.
Lemma s_dynamicReserve b n m : adds (BufferManip.dynamicReserve chk t kind b n m) (b_dynamicReserve dbg chk kind t b n m).
Proof. unfold BufferManip.dynamicReserve, b_dynamicReserve. ads. Qed.
Hint Resolve s_reserve s_dynamicReserve : adds.
Lemma s_bresize b n m v : adds (BufferManip.resize chk t kind b n m v) (b_resize dbg chk kind t b n m v).
Proof. unfold BufferManip.resize, b_resize. ads. Qed.
Lemma s_bemplaceBack b n v : adds (BufferManip.emplaceBack chk t kind b n v) (b_emplaceBack dbg chk kind t b n v).
Proof. unfold BufferManip.emplaceBack, b_emplaceBack. ads. Qed.
Lemma s_bemplace b n p v : adds (BufferManip.emplace chk t kind b n p v) (b_emplace dbg chk kind t b n p v).
Proof. unfold BufferManip.emplace, b_emplace. ads. Qed.
Lemma s_binsert b n p vs : adds (BufferManip.insert chk t kind b n p vs) (b_insert dbg chk kind t b n p vs).
Proof. unfold BufferManip.insert, b_insert. ads. Qed.
Lemma s_bpopBack b n : adds (BufferManip.popBack chk t b n) (b_popBack dbg chk kind t b n).
Proof. unfold BufferManip.popBack, b_popBack. ads. Qed.
Lemma s_berase b n p : adds (BufferManip.erase chk t b n p) (b_erase dbg chk kind t b n p).
Proof. unfold BufferManip.erase, b_erase. ads. Qed.
End AM.
Hint Resolve s_destroy s_uninitializedShiftDown s_uninitializedShiftUp s_resize s_shiftUp s_shiftDown s_erase s_emplaceBack s_append
  s_emplace s_insert s_free s_reserve s_dynamicReserve s_bresize s_bemplaceBack s_bemplace s_binsert s_bpopBack s_berase : adds.

Section Arr.
Variable V : Type.
Variable t : bool.
Variable perm : list nat.
Variable dflt : V.
Lemma s_resizeDefaultDimension (a : Array.array V) n v :
  adds (Array.resizeDefaultDimension chk t kind perm a n v) (a_resizeDefaultDimension dbg chk kind t perm a n v).
Proof. unfold Array.resizeDefaultDimension, a_resizeDefaultDimension. ads. Qed.
Hint Resolve s_resizeDefaultDimension : adds.
Lemma s_clear (a : Array.array V) : adds (Array.clear chk t kind perm dflt a) (a_clear dbg chk kind t perm dflt a).
Proof. unfold Array.clear, a_clear. ads. Qed.
Lemma s_areserve (a : Array.array V) n : adds (Array.reserve chk t kind a n) (a_reserve dbg chk kind t a n).
Proof. unfold Array.reserve, a_reserve. ads. Qed.
Hint Resolve s_clear s_areserve : adds.
Lemma s_nstep c (a : Array.array V) : adds (Array.nstep chk t kind perm dflt c a) (a_nstep dbg chk kind t perm dflt c a).
Proof.
  destruct c; simpl; ads; unfold Array.resize_dims, a_resize_dims, Array.resizeDimension, a_resizeDimension; ads.
Qed.
Lemma s_vstep c (a : Array.array V) : adds (Array.vstep chk t kind perm dflt c a) (a_vstep dbg chk kind t perm dflt c a).
Proof.
  destruct c; simpl; ads; unfold Array.emplace_back, a_emplace_back, Array.emplace, a_emplace, Array.insert, a_insert,
    Array.pop_back, a_pop_back, Array.erase, a_erase; ads.
Qed.
Lemma s_dtor (a : Array.array V) : adds (Array.dtor chk t kind a) (a_dtor dbg chk kind t a).
Proof. unfold Array.dtor, a_dtor. ads. Qed.
End Arr.

Section AoA.
Variables V W : Type.
Variables tv tw dual : bool.
Implicit Types a : AoA.aoa V W.
Lemma s_destroyValues a i j : adds (AoA.destroyValues chk tv tw dual a i j) (g_destroyValues dbg chk kind tv tw dual a i j).
Proof. unfold AoA.destroyValues, g_destroyValues. ads. Qed.
Hint Resolve s_destroyValues : adds.
Lemma s_resizeImpl a n c : adds (AoA.resizeImpl chk tv tw dual kind a n c) (g_resizeImpl dbg chk kind tv tw dual a n c).
Proof. unfold AoA.resizeImpl, g_resizeImpl. ads. Qed.
Lemma s_setCapacityOfArray a i c : adds (AoA.setCapacityOfArray chk tv tw dual kind a i c) (g_setCapacityOfArray dbg chk kind tv tw dual a i c).
Proof. unfold AoA.setCapacityOfArray, g_setCapacityOfArray. ads. Qed.
Hint Resolve s_resizeImpl s_setCapacityOfArray : adds.
Lemma s_dynamicallyGrowArray a i n : adds (AoA.dynamicallyGrowArray chk tv tw dual kind a i n) (g_dynamicallyGrowArray dbg chk kind tv tw dual a i n).
Proof. unfold AoA.dynamicallyGrowArray, g_dynamicallyGrowArray. ads. Qed.
Lemma s_resizeArray a i n v : adds (AoA.resizeArray chk tv tw dual kind a i n v) (g_resizeArray dbg chk kind tv tw dual a i n v).
Proof. unfold AoA.resizeArray, g_resizeArray. ads. Qed.
Lemma s_push_array a : adds (AoA.push_array chk kind a) (g_push_array dbg chk kind a).
Proof. unfold AoA.push_array, g_push_array. ads. Qed.
Lemma s_open_array a i : adds (AoA.open_array chk kind a i) (g_open_array dbg chk kind a i).
Proof. unfold AoA.open_array, g_open_array. ads. Qed.
Hint Resolve s_dynamicallyGrowArray s_resizeArray s_push_array s_open_array : adds.
Lemma s_aoa_appendToArray a i vs : adds (AoA.aoa_appendToArray chk tv tw dual kind a i vs) (g_aoa_appendToArray dbg chk kind tv tw dual a i vs).
Proof. unfold AoA.aoa_appendToArray, g_aoa_appendToArray, AoA.v_appendToArray, g_v_appendToArray. ads. Qed.
Hint Resolve s_aoa_appendToArray : adds.
Lemma s_astep d c a : adds (AoA.astep chk tv tw dual kind d c a) (g_astep dbg chk kind tv tw dual d c a).
Proof.
  destruct c; simpl; ads; unfold AoA.resizeFromCapacities, g_resizeFromCapacities, AoA.aoa_reserve, g_aoa_reserve, AoA.reserveValues,
    g_reserveValues, AoA.compress, g_compress, AoA.appendArray, g_appendArray, AoA.appendArrayFrom, g_appendArrayFrom, AoA.insertArray,
    g_insertArray, AoA.eraseArray, g_eraseArray, AoA.aoa_emplaceBack, g_aoa_emplaceBack, AoA.v_emplaceBack, g_v_emplaceBack,
    AoA.aoa_emplace, g_aoa_emplace, AoA.v_emplace, g_v_emplace, AoA.aoa_insertIntoArray, g_aoa_insertIntoArray, AoA.v_insertIntoArray,
    g_v_insertIntoArray, AoA.eraseFromArray, g_eraseFromArray; ads.
Qed.
Lemma s_arun d h : forall a, adds (AoA.arun chk tv tw dual kind d h a) (g_arun dbg chk kind tv tw dual d h a).
Proof. induction h; intros b; simpl; [ apply adds_refl | ]. apply adds_bind; [ apply s_astep | intros; apply IHh ]. Qed.
Lemma s_dtor_aoa a : adds (AoA.aoa_dtor chk tv tw dual kind a) (g_aoa_dtor dbg chk kind tv tw dual a).
Proof. unfold AoA.aoa_dtor, g_aoa_dtor, AoA.aoa_free, g_aoa_free. ads. Qed.
End AoA.
End All.
