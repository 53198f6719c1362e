(** The members of the views: the part of the memory a container occupies, and its rows moved to another place. *)
From Coq Require Import List Arith ZArith Lia Bool.
From Verif Require Import Base BaseProofs Mem BufferManip AoA Sorted AoS Sparsity CRS Prog ProgProofs ViewProg ViewSim.
From Verif Require ArrayManip.
Import ListNotations.
Set Implicit Arguments.

Section Sim.
Variables V W : Type.
Variable chk tv tw : bool.
(** The view has [n] arrays. The container [a] of the sequential model is the part of it whose arrays start at array
    [i0] and whose values start at [o]. *)
Variables n i0 o no ns nv ne : nat.
Notation aoa := (aoa V W).
Notation heap := (heap V W).
Notation prog := (prog V W).

Definition owned : area := fun b i =>
  match b with
  | BOffs => False
  | BSizes => i0 <= i < i0 + ns
  | BVals => o <= i < o + nv
  | BEnts => o <= i < o + ne
  end.
Definition readable : area := fun b i => match b with BOffs => i0 <= i < i0 + no | _ => owned b i end.
Notation wp := (@wp V W readable owned _).

Definition moved (c : cell nat) : cell nat := match c with Obj v => Obj (o + v) | c => c end.
Record part (a : aoa) (h : heap) : Prop := {
  pt_no : length (offs a) = no; pt_ns : length (szs a) = ns; pt_nv : length (vals a) = nv; pt_ne : length (ents a) = ne;
  pt_num : i0 + numArrays a <= n;
  pt_offs : forall i c, nth_error (offs a) i = Some c -> h BOffs (i0 + i) = Some (moved c);
  pt_szs : forall i c, nth_error (szs a) i = Some c -> h BSizes (i0 + i) = Some c;
  pt_vals : forall i c, nth_error (vals a) i = Some c -> h BVals (o + i) = Some c;
  pt_ents : forall i c, nth_error (ents a) i = Some c -> h BEnts (o + i) = Some c }.

Lemma nth_lt A (l : list A) i c : nth_error l i = Some c -> i < length l.
Proof. intros E. apply nth_error_Some. congruence. Qed.
Lemma nth_in A (l : list A) i : i < length l -> exists c, nth_error l i = Some c.
Proof. intros L. destruct (nth_error l i) eqn:E; eauto. apply nth_error_None in E. lia. Qed.


(** ** The buffers *)
Definition on_vals (a : aoa) : buf V -> heap -> Prop := fun b h => part (set_vals b a) h.
Definition on_szs (a : aoa) : buf nat -> heap -> Prop := fun b h => part (set_szs b a) h.
Definition on_ents (a : aoa) : buf W -> heap -> Prop := fun b h => part (mkAoA (numArrays a) (offs a) (szs a) (vals a) b) h.

Ltac split_nth j i := destruct (Nat.eq_dec j i) as [->|?]; [rewrite nth_error_upd_eq in * by assumption|rewrite nth_error_upd_ne in * by auto].
Lemma vals_read a : @can_read V W readable BVals o (on_vals a).
Proof. intros b h i c H E. split; [|exact (pt_vals H _ E)]. pose proof (pt_nv H). apply nth_lt in E. cbn in *. lia. Qed.
Lemma vals_write a : @can_write V W owned BVals o (on_vals a).
Proof.
  intros b h i c H L. pose proof (pt_nv H) as E. cbn in E, L. split; [cbn; lia|]. split.
  - destruct (nth_in b L) as [x Ex]. rewrite (pt_vals H _ Ex). discriminate.
  - constructor; cbn; try apply H; [rewrite upd_length; exact E|].
    intros j d Ed. unfold put_fn. destruct (Nat.eqb_spec (o + j) (o + i)) as [Ej|Ej].
    + replace j with i in Ed by lia. rewrite nth_error_upd_eq in Ed by exact L. congruence.
    + rewrite nth_error_upd_ne in Ed by lia. exact (pt_vals H _ Ed).
Qed.
Lemma ents_read a : @can_read V W readable BEnts o (on_ents a).
Proof. intros b h i c H E. split; [|exact (pt_ents H _ E)]. pose proof (pt_ne H). apply nth_lt in E. cbn in *. lia. Qed.
Lemma ents_write a : @can_write V W owned BEnts o (on_ents a).
Proof.
  intros b h i c H L. pose proof (pt_ne H) as E. cbn in E, L. split; [cbn; lia|]. split.
  - destruct (nth_in b L) as [x Ex]. rewrite (pt_ents H _ Ex). discriminate.
  - constructor; cbn; try apply H; [rewrite upd_length; exact E|].
    intros j d Ed. unfold put_fn. destruct (Nat.eqb_spec (o + j) (o + i)) as [Ej|Ej].
    + replace j with i in Ed by lia. rewrite nth_error_upd_eq in Ed by exact L. congruence.
    + rewrite nth_error_upd_ne in Ed by lia. exact (pt_ents H _ Ed).
Qed.
Lemma sizes_read a : @can_read V W readable BSizes i0 (on_szs a).
Proof. intros b h i c H E. split; [|exact (pt_szs H _ E)]. pose proof (pt_ns H). apply nth_lt in E. cbn in *. lia. Qed.
Lemma sizes_write a : @can_write V W owned BSizes i0 (on_szs a).
Proof.
  intros b h i c H L. pose proof (pt_ns H) as E. cbn in E, L. split; [cbn; lia|]. split.
  - destruct (nth_in b L) as [x Ex]. rewrite (pt_szs H _ Ex). discriminate.
  - constructor; cbn; try apply H; [rewrite upd_length; exact E|].
    intros j d Ed. unfold put_fn. destruct (Nat.eqb_spec (i0 + j) (i0 + i)) as [Ej|Ej].
    + replace j with i in Ed by lia. rewrite nth_error_upd_eq in Ed by exact L. congruence.
    + rewrite nth_error_upd_ne in Ed by lia. exact (pt_szs H _ Ed).
Qed.
Lemma on_vals_at a h : part a h -> on_vals a (vals a) h.
Proof. unfold on_vals. destruct a; auto. Qed.
Lemma on_szs_at a h : part a h -> on_szs a (szs a) h.
Proof. unfold on_szs. destruct a; auto. Qed.
Lemma on_ents_at a h : part a h -> on_ents a (ents a) h.
Proof. unfold on_ents. destruct a; auto. Qed.

(** ** ArrayOfArraysView *)
Lemma sim_offset a i x h ix (Q : nat -> heap -> Prop) : offset a i = Ok x -> part a h -> ix = i0 + i -> Q (o + x) h -> wp (p_offset V W ix) h Q.
Proof.
  intros E H -> HQ. unfold offset, rd in E. binv E c Ec. apply aget_inv in Ec. unfold p_offset, p_rd, p_get. cbn.
  rewrite (pt_offs H _ Ec). destruct c; try discriminate. injection E as <-. cbn. split; [|exact HQ].
  apply nth_lt in Ec. pose proof (pt_no H). cbn. lia.
Qed.
Lemma sim_size_ a i x h ix (Q : nat -> heap -> Prop) : size_ a i = Ok x -> part a h -> ix = i0 + i -> Q x h -> wp (p_size_ V W ix) h Q.
Proof. intros E H Ei HQ. eapply (@sim_rd V W readable owned BSizes i0 _ (@sizes_read a)); eauto. apply on_szs_at. exact H. Qed.
Lemma sim_put_size a i s a' h ix (Q : unit -> heap -> Prop) : put_size a i s = Ok a' -> part a h -> ix = i0 + i ->
  (forall h', part a' h' -> Q tt h') -> wp (p_put_size V W ix s) h Q.
Proof.
  intros E H Ei HQ. unfold put_size in E. binv E b Eb. injection E as <-.
  eapply (@sim_store V W readable owned BSizes i0 true _ (@sizes_read a) (@sizes_write a)); eauto. apply on_szs_at. exact H.
Qed.
Lemma sim_checkp c d h x (Q : unit -> heap -> Prop) : check_if chk c = Ok x -> (d = true -> c = true) -> Q tt h -> wp (p_check V W chk d) h Q.
Proof.
  intros E I HQ. eapply wp_lift; [|exact HQ]. apply check_inv in E. unfold check_if. destruct chk; cbn in *; auto.
  destruct d; auto. rewrite I in E by auto. discriminate.
Qed.
Lemma sim_error c d h x (Q : unit -> heap -> Prop) : error_if c = Ok x -> (d = true -> c = true) -> Q tt h -> wp (p_error V W d) h Q.
Proof. intros E I HQ. eapply wp_lift; [|exact HQ]. unfold error_if in *. destruct d; auto. rewrite I in E by auto. discriminate. Qed.
Lemma num_check a h i : part a h -> (n <=? i0 + i) = true -> (numArrays a <=? i) = true.
Proof. intros H E. apply Nat.leb_le in E. apply Nat.leb_le. pose proof (pt_num H). lia. Qed.
Lemma sim_check_array a i x h ix (Q : unit -> heap -> Prop) : check_array chk a i = Ok x -> part a h -> ix = i0 + i -> Q tt h -> wp (p_check_array V W chk n ix) h Q.
Proof. intros E H -> HQ. eapply sim_checkp; eauto. apply (num_check i H). Qed.
Lemma sim_sizeOfArray a i x h ix (Q : nat -> heap -> Prop) : sizeOfArray chk a i = Ok x -> part a h -> ix = i0 + i -> Q x h -> wp (p_sizeOfArray V W chk n ix) h Q.
Proof.
  intros E H Ei HQ. unfold sizeOfArray in E. binv E u Eu. unfold p_sizeOfArray. apply wp_bind. eapply sim_check_array; eauto.
  eapply sim_size_; eauto.
Qed.
Lemma sim_capacityOfArray a i x h ix (Q : nat -> heap -> Prop) : capacityOfArray chk a i = Ok x -> part a h -> ix = i0 + i -> Q x h -> wp (p_capacityOfArray V W chk n ix) h Q.
Proof.
  intros E H Ei HQ. unfold capacityOfArray in E. binv E u Eu. binv E o2 E2. binv E o1 E1. unfold p_capacityOfArray.
  apply wp_bind. eapply sim_check_array; eauto. apply wp_bind. eapply sim_offset; [exact E2|exact H|lia|].
  apply wp_bind. eapply sim_offset; [exact E1|exact H|exact Ei|]. eapply wp_lift; [|exact HQ]. eapply sub_ix_both; eauto.
Qed.
Lemma sim_check_array2 a i j x h ix (Q : unit -> heap -> Prop) : check_array2 chk a i j = Ok x -> part a h -> ix = i0 + i -> Q tt h -> wp (p_check_array2 V W chk n ix j) h Q.
Proof.
  intros E H Ei HQ. unfold check_array2 in E. unfold p_check_array2. destruct chk; [|exact HQ]. binv E u Eu. binv E s Es. apply wp_bind.
  eapply sim_error; [exact Eu|subst ix; apply (num_check i H)|]. apply wp_bind. eapply sim_size_; eauto. eapply sim_error; eauto.
Qed.
Lemma sim_check_array_insert2 a i j x h ix (Q : unit -> heap -> Prop) : check_array_insert2 chk a i j = Ok x -> part a h -> ix = i0 + i -> Q tt h -> wp (p_check_array_insert2 V W chk n ix j) h Q.
Proof.
  intros E H Ei HQ. unfold check_array_insert2 in E. unfold p_check_array_insert2. destruct chk eqn:C; [|exact HQ]. binv E u Eu. binv E s Es. apply wp_bind.
  eapply sim_error; [exact Eu|subst ix; apply (num_check i H)|]. apply wp_bind. rewrite <- C in *. eapply sim_sizeOfArray; eauto. eapply sim_error; eauto.
Qed.
Lemma sim_check_capacity a i k x h ix (Q : unit -> heap -> Prop) : check_capacity chk a i k = Ok x -> part a h -> ix = i0 + i -> Q tt h -> wp (p_check_capacity V W chk n ix k) h Q.
Proof.
  intros E H Ei HQ. unfold check_capacity in E. unfold p_check_capacity. destruct chk eqn:C; [|exact HQ]. rewrite <- C in *. binv E s Es. binv E c Ec. apply wp_bind.
  eapply sim_sizeOfArray; eauto. apply wp_bind. eapply sim_capacityOfArray; eauto. eapply sim_error; eauto.
Qed.
Lemma sim_slot a i j x h ix (Q : nat -> heap -> Prop) : slot chk a i j = Ok x -> part a h -> ix = i0 + i -> Q (o + x) h -> wp (p_slot V W chk n ix j) h Q.
Proof.
  intros E H Ei HQ. unfold slot in E. binv E u Eu. binv E y Ey. injection E as <-. unfold p_slot. apply wp_bind. eapply sim_check_array2; eauto.
  apply wp_bind. eapply sim_offset; eauto. cbn. rewrite <- Nat.add_assoc. exact HQ.
Qed.
Lemma sim_at a i j x h ix (Q : V -> heap -> Prop) : aoa_at chk a i j = Ok x -> part a h -> ix = i0 + i -> Q x h -> wp (p_at V W chk n ix j) h Q.
Proof.
  intros E H Ei HQ. unfold aoa_at in E. binv E k Ek. unfold p_at. apply wp_bind. eapply sim_slot; eauto.
  eapply (@sim_rd V W readable owned BVals o _ (@vals_read a)); eauto. apply on_vals_at. exact H.
Qed.
Lemma sim_set a i j v a' h ix (Q : unit -> heap -> Prop) : aoa_set chk tv a i j v = Ok a' -> part a h -> ix = i0 + i ->
  (forall h', part a' h' -> Q tt h') -> wp (p_set W chk tv n ix j v) h Q.
Proof.
  intros E H Ei HQ. unfold aoa_set in E. binv E k Ek. binv E b Eb. injection E as <-. unfold p_set. apply wp_bind. eapply sim_slot; eauto.
  eapply (@sim_store V W readable owned BVals o tv _ (@vals_read a) (@vals_write a)); eauto. apply on_vals_at. exact H.
Qed.

Lemma sim_v_emplaceBack a i v a' h ix (Q : unit -> heap -> Prop) : v_emplaceBack chk tv a i v = Ok a' -> part a h -> ix = i0 + i ->
  (forall h', part a' h' -> Q tt h') -> wp (p_v_emplaceBack W chk tv n ix v) h Q.
Proof.
  intros E H Ei HQ. unfold v_emplaceBack in E. binv E u Eu. binv E w Ew. binv E p Ep. binv E s Es. binv E b Eb. unfold p_v_emplaceBack.
  apply wp_bind. eapply sim_check_array; eauto. apply wp_bind. eapply sim_check_capacity; eauto.
  apply wp_bind. eapply sim_offset; eauto. apply wp_bind. eapply sim_sizeOfArray; eauto. apply wp_bind.
  eapply (@sim_place V W readable owned BVals o tv _ (@vals_read a) (@vals_write a)); [exact Eb|apply on_vals_at; exact H|lia|].
  intros h1 H1. eapply sim_put_size; eauto.
Qed.
Lemma sim_v_appendToArray a i vs a' h ix (Q : unit -> heap -> Prop) : v_appendToArray chk tv a i vs = Ok a' -> part a h -> ix = i0 + i ->
  (forall h', part a' h' -> Q tt h') -> wp (p_v_appendToArray W chk tv n ix vs) h Q.
Proof.
  intros E H Ei HQ. unfold v_appendToArray in E. binv E u Eu. binv E p Ep. binv E s Es. binv E bk Eb. destruct bk as [b k]. binv E w Ew. unfold p_v_appendToArray.
  apply wp_bind. eapply sim_check_array; eauto.
  apply wp_bind. eapply sim_offset; eauto. apply wp_bind. eapply sim_sizeOfArray; eauto. apply wp_bind.
  eapply (@sim_append V W readable owned BVals o tv _ (@vals_read a) (@vals_write a)); [exact Eb|apply on_vals_at; exact H|lia|].
  intros h1 H1. apply wp_bind. eapply sim_check_capacity; [exact Ew|exact H1|exact Ei|]. eapply sim_put_size; eauto.
Qed.
Lemma sim_v_emplace a i j v a' h ix (Q : unit -> heap -> Prop) : v_emplace chk tv a i j v = Ok a' -> part a h -> ix = i0 + i ->
  (forall h', part a' h' -> Q tt h') -> wp (p_v_emplace W chk tv n ix j v) h Q.
Proof.
  intros E H Ei HQ. unfold v_emplace in E. binv E u Eu. binv E w Ew. binv E p Ep. binv E s Es. binv E b Eb. unfold p_v_emplace.
  apply wp_bind. eapply sim_check_array_insert2; eauto. apply wp_bind. eapply sim_check_capacity; eauto.
  apply wp_bind. eapply sim_offset; eauto. apply wp_bind. eapply sim_sizeOfArray; eauto. apply wp_bind.
  eapply (@sim_emplace V W readable owned chk BVals o tv _ (@vals_read a) (@vals_write a)); [exact Eb|apply on_vals_at; exact H|lia|].
  intros h1 H1. eapply sim_put_size; eauto.
Qed.
Lemma sim_v_insertIntoArray a i j vs a' h ix (Q : unit -> heap -> Prop) : v_insertIntoArray chk tv a i j vs = Ok a' -> part a h -> ix = i0 + i ->
  (forall h', part a' h' -> Q tt h') -> wp (p_v_insertIntoArray W chk tv n ix j vs) h Q.
Proof.
  intros E H Ei HQ. unfold v_insertIntoArray in E. binv E u Eu. binv E w Ew. binv E p Ep. binv E s Es. binv E b Eb. unfold p_v_insertIntoArray.
  apply wp_bind. eapply sim_check_array_insert2; eauto. apply wp_bind. eapply sim_check_capacity; eauto.
  apply wp_bind. eapply sim_offset; eauto. apply wp_bind. eapply sim_sizeOfArray; eauto. apply wp_bind.
  eapply (@sim_insert V W readable owned chk BVals o tv _ (@vals_read a) (@vals_write a)); [exact Eb|apply on_vals_at; exact H|lia|].
  intros h1 H1. eapply sim_put_size; eauto.
Qed.
Lemma sim_eraseFromArray a i j k a' h ix (Q : unit -> heap -> Prop) : eraseFromArray chk tv a i j k = Ok a' -> part a h -> ix = i0 + i ->
  (forall h', part a' h' -> Q tt h') -> wp (p_eraseFromArray V W chk tv n ix j k) h Q.
Proof.
  intros E H Ei HQ. unfold eraseFromArray in E. binv E u Eu. binv E p Ep. binv E s Es. binv E b Eb. binv E s' Es'. unfold p_eraseFromArray.
  apply wp_bind. eapply sim_check_array2; eauto.
  apply wp_bind. eapply sim_offset; eauto. apply wp_bind. eapply sim_sizeOfArray; eauto. apply wp_bind.
  eapply (@sim_erase V W readable owned chk BVals o tv _ (@vals_read a) (@vals_write a)); [exact Eb|apply on_vals_at; exact H|lia|].
  intros h1 H1. apply wp_bind. eapply wp_lift; [exact Es'|]. eapply sim_put_size; eauto.
Qed.

(** ** ArrayOfSetsView *)
Variable lt eqb : V -> V -> bool.
Lemma sim_getSetValues a i x h ix (Q : nat -> heap -> Prop) : getSetValues chk a i = Ok x -> part a h -> ix = i0 + i -> Q (o + x) h -> wp (p_getSetValues V W chk n ix) h Q.
Proof.
  intros E H Ei HQ. unfold getSetValues in E. binv E u Eu. unfold p_getSetValues. apply wp_bind. eapply sim_check_array; eauto. eapply sim_offset; eauto.
Qed.

Section Impl.
Notation X := (aoa * nat)%type.
Variable cb : callbacks V X.
Variable inc : nat -> prog nat.
Variable ev : event -> prog unit.
(** The pointer of the callbacks *)
Variable e0 : nat.
Definition on_state (b : buf V) (x : X) (h : heap) : Prop := part (set_vals b (fst x)) h /\ snd x = e0.
Definition inc_sim : Prop := forall k b x b' x' p' h (Q : nat -> heap -> Prop), cb_inc cb k (b, x) = Ok (b', x', p') -> on_state b x h ->
  (forall h', on_state b' x' h' -> Q (o + p') h') -> wp (inc k) h Q.
Definition ev_sim : Prop := forall e b x x' h (Q : unit -> heap -> Prop), cb_ev cb e x = Ok x' -> on_state b x h ->
  (forall h', on_state b x' h' -> Q tt h') -> wp (ev e) h Q.
Lemma st_read x : @can_read V W readable BVals o (fun b => on_state b x).
Proof. intros b h i c [H _] E. exact (@vals_read (fst x) b h i c H E). Qed.
Lemma st_write x : @can_write V W owned BVals o (fun b => on_state b x).
Proof. intros b h i c [H E] L. destruct (@vals_write (fst x) b h i c H L) as (A & B & C). exact (conj A (conj B (conj C E))). Qed.
Hypothesis Hinc : inc_sim.
Hypothesis Hev : ev_sim.
Ltac start E H Ei u Eu s Es p Ep := binv E u Eu; binv E s Es; binv E p Ep; apply wp_bind; eapply sim_check_array; [exact Eu|exact H|exact Ei|];
  apply wp_bind; eapply sim_sizeOfArray; [exact Es|exact H|exact Ei|]; apply wp_bind; eapply sim_getSetValues; [exact Ep|exact H|exact Ei|].

Lemma sim_insertImpl a i v a' r h ix (Q : bool -> heap -> Prop) : insertIntoSetImpl chk tv lt eqb cb a e0 i v = Ok (a', r) -> part a h -> ix = i0 + i ->
  (forall h', part a' h' -> Q r h') -> wp (p_insertImpl chk tv n lt eqb inc ev ix v) h Q.
Proof.
  intros E H Ei HQ. unfold insertIntoSetImpl in E. unfold p_insertImpl. start E H Ei u Eu s Es p Ep. binv E bx Eb. destruct bx as [[b x] su].
  binv E t Et. binv E a2 E2. injection E as <- <-. apply wp_bind.
  eapply (@sim_set_insert V W X readable owned chk tv lt eqb cb inc ev o on_state st_read st_write Hinc Hev); [exact Eb| |reflexivity|].
  { split; [apply on_vals_at; exact H|reflexivity]. }
  intros h1 [H1 _]. apply wp_bind. eapply sim_size_; [exact Et|exact H1|exact Ei|]. apply wp_bind. eapply sim_put_size; [exact E2|exact H1|exact Ei|]. exact HQ.
Qed.
Lemma sim_insertsImpl a i vs a' r h ix (Q : nat -> heap -> Prop) : insertsIntoSetImpl chk tv lt eqb cb a e0 i vs = Ok (a', r) -> part a h -> ix = i0 + i ->
  (forall h', part a' h' -> Q r h') -> wp (p_insertsImpl chk tv n lt eqb inc ev ix vs) h Q.
Proof.
  intros E H Ei HQ. unfold insertsIntoSetImpl in E. unfold p_insertsImpl. start E H Ei u Eu s Es p Ep. binv E bx Eb. destruct bx as [[b x] su].
  binv E t Et. binv E a2 E2. injection E as <- <-. apply wp_bind.
  eapply (@sim_inserts V W X readable owned chk tv lt eqb cb inc ev o on_state st_read st_write Hinc Hev); [exact Eb| |reflexivity|].
  { split; [apply on_vals_at; exact H|reflexivity]. }
  intros h1 [H1 _]. apply wp_bind. eapply sim_size_; [exact Et|exact H1|exact Ei|]. apply wp_bind. eapply sim_put_size; [exact E2|exact H1|exact Ei|]. exact HQ.
Qed.
Lemma sim_removeImpl a i v a' r h ix (Q : bool -> heap -> Prop) : removeFromSetImpl chk tv lt eqb cb a e0 i v = Ok (a', r) -> part a h -> ix = i0 + i ->
  (forall h', part a' h' -> Q r h') -> wp (p_removeImpl chk tv n lt eqb ev ix v) h Q.
Proof.
  intros E H Ei HQ. unfold removeFromSetImpl in E. unfold p_removeImpl. start E H Ei u Eu s Es p Ep. binv E bx Eb. destruct bx as [[b x] su].
  binv E t Et. binv E s' Es'. binv E a2 E2. injection E as <- <-. apply wp_bind.
  eapply (@sim_remove V W X readable owned chk tv lt eqb cb ev o on_state st_read st_write Hev); [exact Eb| |reflexivity|].
  { split; [apply on_vals_at; exact H|reflexivity]. }
  intros h1 [H1 _]. apply wp_bind. eapply sim_size_; [exact Et|exact H1|exact Ei|]. apply wp_bind. eapply wp_lift; [exact Es'|].
  apply wp_bind. eapply sim_put_size; [exact E2|exact H1|exact Ei|]. exact HQ.
Qed.
Lemma sim_removesImpl a i vs a' r h ix (Q : nat -> heap -> Prop) : removesFromSetImpl chk tv lt eqb cb a e0 i vs = Ok (a', r) -> part a h -> ix = i0 + i ->
  (forall h', part a' h' -> Q r h') -> wp (p_removesImpl chk tv n lt eqb ev ix vs) h Q.
Proof.
  intros E H Ei HQ. unfold removesFromSetImpl in E. unfold p_removesImpl. start E H Ei u Eu s Es p Ep. binv E bx Eb. destruct bx as [[b x] su].
  binv E t Et. binv E s' Es'. binv E a2 E2. injection E as <- <-. apply wp_bind.
  eapply (@sim_removes V W X readable owned chk tv lt eqb cb ev o on_state st_read st_write Hev); [exact Eb| |reflexivity|].
  { split; [apply on_vals_at; exact H|reflexivity]. }
  intros h1 [H1 _]. apply wp_bind. eapply sim_size_; [exact Et|exact H1|exact Ei|]. apply wp_bind. eapply wp_lift; [exact Es'|].
  apply wp_bind. eapply sim_put_size; [exact E2|exact H1|exact Ei|]. exact HQ.
Qed.
End Impl.

Lemma view_inc_sim i ix e0 : ix = i0 + i -> inc_sim (view_cb V W chk i) (p_view_inc V W chk n ix) e0.
Proof.
  intros Ei k b [x e] b' x' p' h Q E [H He] HQ. cbn [cb_inc view_cb fst snd] in *. binv E u Eu. binv E p Ep. injection E as <- <- <-. cbn [fst snd] in *.
  unfold p_view_inc. apply wp_bind. destruct chk eqn:C; rewrite <- C in *.
  - binv Eu s Es. binv Eu c Ec. apply wp_bind. eapply sim_sizeOfArray; [exact Es|exact H|exact Ei|]. apply wp_bind.
    eapply sim_capacityOfArray; [exact Ec|exact H|exact Ei|]. eapply sim_error; [exact Eu|auto|]. eapply sim_getSetValues; [exact Ep|exact H|exact Ei|].
    apply HQ. split; auto.
  - cbn. eapply sim_getSetValues; [exact Ep|exact H|exact Ei|]. apply HQ. split; auto.
Qed.
Lemma view_ev_sim i e0 : ev_sim (view_cb V W chk i) (no_ev V W) e0.
Proof. intros e b x x' h Q E H HQ. cbn in E. injection E as <-. cbn. auto. Qed.
End Sim.
