(** The members of ArrayOfArrays in machine arithmetic and in unbounded arithmetic. *)
From Coq Require Import List Arith ZArith Lia Bool.
From Verif Require Import Base BaseProofs Mem MemProofs ArrayManipProofs BufferManip BufferManipProofs AoA AoASpec AoALayout AoAProofs AoAProofs2 AoAProofs3 AoAProofs4 MachineAoA.
From Verif Require ArrayManip.
Import ListNotations.
Set Implicit Arguments.
Unset Strict Implicit.

(** * Either the same outcome or an overflow *)
Definition sim {A} (m f : outcome A) : Prop := m = f \/ m = Fault FOverflow.
Lemma sim_refl {A} (m : outcome A) : sim m m.
Proof. left. auto. Qed.
Lemma sim_bind {A B} (m f : outcome A) (g h : A -> outcome B) :
  sim m f -> (forall x, sim (g x) (h x)) -> sim (bind m g) (bind f h).
Proof. intros [->| ->] H; [destruct f; simpl; auto; apply sim_refl|right; auto]. Qed.
Lemma sim_fit {B} hi n (g : nat -> outcome B) f : sim (g n) f -> sim (bind (fit hi n) g) f.
Proof. intros H. unfold fit. destruct (n <=? hi); simpl; [exact H|right; auto]. Qed.
Lemma sim_osize {B} hi (c : bool) n (g : nat -> outcome B) f :
  sim (g (if c then 0 else n)) f -> sim (bind (if c then Ok 0 else fit hi n) g) f.
Proof. destruct c; simpl; auto. apply sim_fit. Qed.
Lemma sim_fit_id hi n : sim (fit hi n) (Ok n).
Proof. unfold fit. destruct (n <=? hi); [left|right]; auto. Qed.
Lemma sim_if {A} (c : bool) (m m' f f' : outcome A) : sim m f -> sim m' f' -> sim (if c then m else m') (if c then f else f').
Proof. destruct c; auto. Qed.
Lemma sim_for_up {S} n (g h : nat -> S -> outcome S) : (forall i s, sim (g i s) (h i s)) ->
  forall i s, sim (for_up n g i s) (for_up n h i s).
Proof. intros H. induction n as [|n IH]; intros i s; cbn [for_up]; [apply sim_refl|]. apply sim_bind; auto. Qed.
Lemma sim_each {V W} tv tw dual (F G : forall A, bool -> buf A -> outcome (buf A)) (a : aoa V W) :
  (forall A t b, sim (F A t b) (G A t b)) -> sim (each tv tw dual F a) (each tv tw dual G a).
Proof.
  intros H. unfold each. apply sim_bind; auto. intros v. apply sim_bind; [|intros; apply sim_refl].
  destruct dual; auto. apply sim_refl.
Qed.

Section Sim.
Variable V W : Type.
Variable hi : nat.
Variable chk tv tw dual : bool.
Variable kind : bkind.
Notation aoa := (aoa V W).
Implicit Types a : aoa.

Ltac sim1 :=
  match goal with
  | |- sim ?m ?m => apply sim_refl
  | |- sim (bind (fit _ _) _) _ => apply sim_fit
  | |- sim (bind (if _ then Ok 0 else fit _ _) _) _ => apply sim_osize
  | |- sim (bind _ _) (bind _ _) => apply sim_bind; [|intros]
  | |- sim (if _ then _ else _) (if _ then _ else _) => apply sim_if
  | |- sim (for_up _ _ _ _) (for_up _ _ _ _) => apply sim_for_up; intros
  | |- sim (each _ _ _ _ _) (each _ _ _ _ _) => apply sim_each; intros
  | |- sim (match ?x with _ => _ end) (match ?x with _ => _ end) => destruct x
  end.
Ltac sims := repeat sim1; auto using sim_fit_id, sim_refl.

Lemma sim_cap a i : sim (m_capacityOfArray hi chk a i) (capacityOfArray chk a i).
Proof. unfold m_capacityOfArray, capacityOfArray. sims. Qed.
Lemma sim_ccap a i n : sim (m_check_capacity hi chk a i n) (check_capacity chk a i n).
Proof. unfold m_check_capacity, check_capacity. pose proof (sim_cap a i). sims. Qed.
Lemma sim_set a i j v : sim (m_aoa_set hi chk tv a i j v) (aoa_set chk tv a i j v).
Proof. unfold m_aoa_set, aoa_set, m_slot, slot. sims. Qed.
Lemma sim_reserve a n : sim (m_aoa_reserve hi chk kind a n) (aoa_reserve chk kind a n).
Proof. unfold m_aoa_reserve, aoa_reserve. sims. Qed.
Lemma sim_compress a : sim (m_compress hi chk tv tw dual a) (compress chk tv tw dual a).
Proof. unfold m_compress, compress. sims. Qed.
Lemma sim_scan caps : forall a i acc, sim (m_scan_into hi a i acc caps) (scan_into a i acc caps).
Proof. induction caps as [|c caps IH]; intros a i acc; cbn [m_scan_into scan_into]; sims. Qed.
Lemma sim_caps a caps : sim (m_resizeFromCapacities hi chk tv tw dual kind a caps) (resizeFromCapacities chk tv tw dual kind a caps).
Proof. unfold m_resizeFromCapacities, resizeFromCapacities. pose proof sim_scan. sims. Qed.
Lemma sim_resize a n cap : sim (m_resizeImpl hi chk tv tw dual kind a n cap) (resizeImpl chk tv tw dual kind a n cap).
Proof. unfold m_resizeImpl, resizeImpl. sims. Qed.
Lemma sim_setcap a i c : sim (m_setCapacityOfArray hi chk tv tw dual kind a i c) (setCapacityOfArray chk tv tw dual kind a i c).
Proof. unfold m_setCapacityOfArray, setCapacityOfArray. pose proof (sim_cap a i). sims. Qed.
Lemma sim_vback a i v : sim (m_v_emplaceBack hi chk tv a i v) (v_emplaceBack chk tv a i v).
Proof. unfold m_v_emplaceBack, v_emplaceBack. pose proof (sim_ccap a i 1). sims. Qed.
Lemma sim_vappend a i vs : sim (m_v_appendToArray hi chk tv a i vs) (v_appendToArray chk tv a i vs).
Proof. unfold m_v_appendToArray, v_appendToArray. pose proof sim_ccap. sims. Qed.
Lemma sim_vemplace a i j v : sim (m_v_emplace hi chk tv a i j v) (v_emplace chk tv a i j v).
Proof. unfold m_v_emplace, v_emplace. pose proof (sim_ccap a i 1). sims. Qed.
Lemma sim_vinsert a i j vs : sim (m_v_insertIntoArray hi chk tv a i j vs) (v_insertIntoArray chk tv a i j vs).
Proof. unfold m_v_insertIntoArray, v_insertIntoArray. pose proof sim_ccap. sims. Qed.
Lemma sim_grow a i n : sim (m_dynamicallyGrowArray hi chk tv tw dual kind a i n) (dynamicallyGrowArray chk tv tw dual kind a i n).
Proof. unfold m_dynamicallyGrowArray, dynamicallyGrowArray. pose proof sim_cap. pose proof sim_setcap. sims. Qed.
Lemma sim_resizeArray a i n v : sim (m_resizeArray hi chk tv tw dual kind a i n v) (resizeArray chk tv tw dual kind a i n v).
Proof. unfold m_resizeArray, resizeArray. pose proof sim_cap. pose proof sim_setcap. sims. Qed.
Lemma sim_push a : sim (m_push_array hi chk kind a) (push_array chk kind a).
Proof. unfold m_push_array, push_array. sims. Qed.
Lemma sim_open a i : sim (m_open_array hi chk kind a i) (open_array chk kind a i).
Proof. unfold m_open_array, open_array. sims. Qed.
Lemma sim_append a i vs : sim (m_appendToArray hi chk tv tw dual kind a i vs) (aoa_appendToArray chk tv tw dual kind a i vs).
Proof. unfold m_appendToArray, aoa_appendToArray. pose proof sim_grow. pose proof sim_vappend. sims. Qed.

Lemma sim_step dflt c a : sim (m_astep hi chk tv tw dual kind dflt c a) (astep chk tv tw dual kind dflt c a).
Proof.
  pose proof sim_grow as G.
  destruct c; cbn [m_astep astep]; auto using sim_refl, sim_caps, sim_resize, sim_reserve, sim_compress, sim_setcap, sim_set, sim_resizeArray, sim_append.
  - unfold m_appendArray, appendArray. pose proof sim_push. pose proof sim_resizeArray. sims.
  - unfold m_appendArrayFrom, appendArrayFrom. pose proof sim_push. pose proof sim_append. sims.
  - unfold m_insertArray, insertArray. pose proof sim_open. pose proof sim_append. sims.
  - unfold m_eraseArray, eraseArray. pose proof sim_setcap. sims.
  - unfold m_emplaceBack, aoa_emplaceBack. pose proof sim_vback. sims.
  - unfold m_emplace, aoa_emplace. pose proof sim_vemplace. sims.
  - unfold m_insertIntoArray, aoa_insertIntoArray. pose proof sim_vinsert. sims.
Qed.
Lemma sim_run dflt h : forall a, sim (m_arun hi chk tv tw dual kind dflt h a) (arun chk tv tw dual kind dflt h a).
Proof. pose proof (sim_step dflt) as H. induction h as [|c h IH]; intros a; cbn [m_arun arun]; sims. Qed.
Lemma sim_new n cap : sim (m_new_aoa V W hi chk tv tw dual kind n cap) (new_aoa V W chk tv tw dual kind n cap).
Proof. apply sim_resize. Qed.
End Sim.
