(** The programs of ViewProg.v do what the sequential functions do, and access only the cells the functions get. *)
From Coq Require Import List Arith ZArith Lia Bool.
From Verif Require Import Base BaseProofs Mem AoA Sorted Prog ProgProofs ViewProg.
From Verif Require ArrayManip.
Import ListNotations.
Set Implicit Arguments.

Lemma bind_inv A B (m : outcome A) (k : A -> outcome B) y : bind m k = Ok y -> exists x, m = Ok x /\ k x = Ok y.
Proof. destruct m; cbn; intros H; try discriminate. eauto. Qed.
Lemma check_inv chk c x : check_if chk c = Ok x -> (chk && c)%bool = false.
Proof. unfold check_if. destruct (chk && c)%bool; [discriminate|auto]. Qed.
Lemma sub_ix_inv a b d : sub_ix a b = Ok d -> b <= a /\ d = a - b.
Proof. unfold sub_ix. destruct (Nat.leb_spec b a); intros E; [|discriminate]. injection E as <-. auto. Qed.
Lemma sub_ix_shift o a b d : sub_ix a b = Ok d -> sub_ix (o + a) b = Ok (o + d).
Proof. intros E. apply sub_ix_inv in E as [L ->]. unfold sub_ix. destruct (Nat.leb_spec b (o + a)); [f_equal; lia|lia]. Qed.
Lemma sub_ix_both o a b d : sub_ix a b = Ok d -> sub_ix (o + a) (o + b) = Ok d.
Proof. intros E. apply sub_ix_inv in E as [L ->]. unfold sub_ix. destruct (Nat.leb_spec (o + b) (o + a)); [f_equal; lia|lia]. Qed.
Lemma aget_inv A (l : list A) i x : aget l i = Ok x -> nth_error l i = Some x.
Proof. unfold aget. destruct (nth_error l i); intros E; congruence. Qed.
Lemma aset_inv A (l l' : list A) i x : aset l i x = Ok l' -> i < length l /\ l' = upd l i x.
Proof. unfold aset. destruct (Nat.ltb_spec i (length l)); intros E; [|discriminate]. injection E as <-. auto. Qed.
Ltac binv H x E := apply bind_inv in H as (x & E & H).

Section Buf.
Variables V W : Type.
Variables R O : area.
Variable chk : bool.
Notation ty := (ty V W).
Notation heap := (heap V W).
Notation prog := (prog V W).
Notation wp := (@wp V W R O _).

(** A buffer seen as the cells from [o] on of buffer [bd]; [Rel] is what relates its contents to the memory. *)
Variable bd : bid.
Variable o : nat.
Variable triv : bool.
Notation buf := (buf (ty bd)).
Variable Rel : buf -> heap -> Prop.
Definition can_read : Prop := forall b h i c, Rel b h -> nth_error b i = Some c -> R bd (o + i) /\ h bd (o + i) = Some c.
Definition can_write : Prop := forall b h i c, Rel b h -> i < length b -> O bd (o + i) /\ h bd (o + i) <> None /\ Rel (upd b i c) (hset h bd (o + i) c).
Hypothesis Hget : can_read.
Hypothesis Hset : can_write.

Lemma sim_get b i c h ix Q : aget b i = Ok c -> Rel b h -> ix = o + i -> (Q c h : Prop) -> wp (p_get V W bd ix) h Q.
Proof. intros E H -> HQ. apply aget_inv in E. destruct (Hget i H E) as [Hr Eh]. cbn. rewrite Eh. auto. Qed.
Lemma sim_put b i c b' h ix (Q : unit -> heap -> Prop) : aset b i c = Ok b' -> Rel b h -> ix = o + i ->
  (forall h', Rel b' h' -> Q tt h') -> wp (p_put V W bd ix c) h Q.
Proof. intros E H -> HQ. apply aset_inv in E as [L ->]. destruct (Hset c H L) as (Ho & Hd & H'). cbn. auto. Qed.
Lemma sim_rd b i v h ix (Q : ty bd -> heap -> Prop) : rd b i = Ok v -> Rel b h -> ix = o + i -> Q v h -> wp (p_rd V W bd ix) h Q.
Proof.
  intros E H Ei HQ. unfold rd in E. binv E c Ec. apply wp_bind. eapply sim_get; eauto. cbv beta iota.
  destruct c; try discriminate. injection E as <-. exact HQ.
Qed.
Lemma sim_place b i c b' h ix (Q : unit -> heap -> Prop) : place triv b i c = Ok b' -> Rel b h -> ix = o + i ->
  (forall h', Rel b' h' -> Q tt h') -> wp (p_place V W bd triv ix c) h Q.
Proof.
  intros E H Ei HQ. unfold place in E. binv E old Eo. apply wp_bind. eapply sim_get; eauto. cbv beta iota.
  destruct old; [|destruct triv; [|discriminate]|]; eapply sim_put; eauto.
Qed.
Lemma sim_store b i c b' h ix (Q : unit -> heap -> Prop) : store triv b i c = Ok b' -> Rel b h -> ix = o + i ->
  (forall h', Rel b' h' -> Q tt h') -> wp (p_store V W bd triv ix c) h Q.
Proof.
  intros E H Ei HQ. unfold store in E. binv E old Eo. apply wp_bind. eapply sim_get; eauto. cbv beta iota.
  destruct old; [destruct triv; [|discriminate]| |]; eapply sim_put; eauto.
Qed.
Lemma sim_take b i c b' h ix (Q : cell (ty bd) -> heap -> Prop) : take triv b i = Ok (c, b') -> Rel b h -> ix = o + i ->
  (forall h', Rel b' h' -> Q c h') -> wp (p_take V W bd triv ix) h Q.
Proof.
  intros E H Ei HQ. unfold take in E. binv E old Eo. apply wp_bind. eapply sim_get; eauto. cbv beta iota.
  destruct triv; [injection E as <- <-; apply HQ; exact H|].
  destruct old; [discriminate| |injection E as <- <-; apply HQ; exact H].
  binv E b1 E1. injection E as <- <-. apply (wp_bind R O (p_put V W bd ix Hollow)). eapply sim_put; eauto.
Qed.
Lemma sim_mconstruct b d s b' h dx sx (Q : unit -> heap -> Prop) : mconstruct triv b d s = Ok b' -> Rel b h -> dx = o + d -> sx = o + s ->
  (forall h', Rel b' h' -> Q tt h') -> wp (p_mconstruct V W bd triv dx sx) h Q.
Proof.
  intros E H Ed Es HQ. unfold mconstruct in E. binv E cb Ec. destruct cb as [c b1]. apply wp_bind. eapply sim_take; eauto.
  intros h1 H1. eapply sim_place; eauto.
Qed.
Lemma sim_massign b d s b' h dx sx (Q : unit -> heap -> Prop) : massign triv b d s = Ok b' -> Rel b h -> dx = o + d -> sx = o + s ->
  (forall h', Rel b' h' -> Q tt h') -> wp (p_massign V W bd triv dx sx) h Q.
Proof.
  intros E H Ed Es HQ. unfold massign in E. binv E cb Ec. destruct cb as [c b1]. apply wp_bind. eapply sim_take; eauto.
  intros h1 H1. eapply sim_store; eauto.
Qed.
Lemma sim_destroy1 b i b' h ix (Q : unit -> heap -> Prop) : destroy1 triv b i = Ok b' -> Rel b h -> ix = o + i ->
  (forall h', Rel b' h' -> Q tt h') -> wp (p_destroy1 V W bd triv ix) h Q.
Proof.
  intros E H Ei HQ. unfold destroy1 in E. binv E old Eo. apply wp_bind. eapply sim_get; eauto. cbv beta iota.
  destruct triv; [injection E as <-; cbn; auto|]. destruct old; [discriminate| |]; eapply sim_put; eauto.
Qed.

Lemma sim_up (f : nat -> buf -> outcome buf) (g : nat -> prog unit) :
  (forall j b b' h (Q : unit -> heap -> Prop), f j b = Ok b' -> Rel b h -> (forall h', Rel b' h' -> Q tt h') -> wp (g j) h Q) ->
  forall n i b b' h (Q : unit -> heap -> Prop), for_up n f i b = Ok b' -> Rel b h -> (forall h', Rel b' h' -> Q tt h') -> wp (p_up n g i) h Q.
Proof.
  intros Hf. induction n as [|n IH]; intros i b b' h Q E H HQ; cbn in E |- *.
  - injection E as <-. auto.
  - binv E b1 E1. apply wp_bind. eapply Hf; eauto.
Qed.
Lemma sim_down (f : nat -> buf -> outcome buf) (g : nat -> prog unit) :
  (forall j b b' h (Q : unit -> heap -> Prop), f j b = Ok b' -> Rel b h -> (forall h', Rel b' h' -> Q tt h') -> wp (g j) h Q) ->
  forall n b b' h (Q : unit -> heap -> Prop), for_down n f b = Ok b' -> Rel b h -> (forall h', Rel b' h' -> Q tt h') -> wp (p_down n g) h Q.
Proof.
  intros Hf. induction n as [|n IH]; intros b b' h Q E H HQ; cbn in E |- *.
  - injection E as <-. auto.
  - binv E b1 E1. apply wp_bind. eapply Hf; eauto.
Qed.
Lemma sim_check c h x (Q : unit -> heap -> Prop) : check_if chk c = Ok x -> Q tt h -> wp (p_check V W chk c) h Q.
Proof. intros E HQ. eapply wp_lift; eauto. destruct x; exact HQ. Qed.

Lemma sim_destroy b p n b' h px (Q : unit -> heap -> Prop) : ArrayManip.destroy triv b p n = Ok b' -> Rel b h -> px = o + p ->
  (forall h', Rel b' h' -> Q tt h') -> wp (p_destroy V W bd triv px n) h Q.
Proof.
  intros E H Ep HQ. eapply sim_up; eauto. cbn. intros j b1 b2 h1 Q1 E1 H1 HQ1. eapply sim_destroy1; eauto. lia.
Qed.
Lemma sim_copy vs : forall b p b' h px (Q : unit -> heap -> Prop), ArrayManip.uninitializedCopy triv vs b p = Ok b' -> Rel b h -> px = o + p ->
  (forall h', Rel b' h' -> Q tt h') -> wp (p_uninitializedCopy V W bd triv vs px) h Q.
Proof.
  induction vs as [|v vs IH]; intros b p b' h px Q E H Ep HQ; cbn in E |- *.
  - injection E as <-. auto.
  - binv E b1 E1. apply (wp_bind R O (p_place V W bd triv px (Obj v))). eapply sim_place; eauto. intros h1 H1. eapply IH; eauto. lia.
Qed.
Lemma sim_shiftUp b p size index n b' h px (Q : unit -> heap -> Prop) : ArrayManip.shiftUp chk triv b p size index n = Ok b' -> Rel b h -> px = o + p ->
  (forall h', Rel b' h' -> Q tt h') -> wp (p_shiftUp V W chk bd triv px size index n) h Q.
Proof.
  intros E H Ep HQ. unfold ArrayManip.shiftUp in E. binv E u Eu. unfold p_shiftUp. apply wp_bind. eapply sim_check; eauto.
  destruct (n =? 0); [injection E as <-; cbn; auto|]. binv E b1 E1. apply wp_bind.
  eapply sim_down with (f := fun k b => mconstruct triv b (p + (index + k) + n) (p + (index + k))).
  - intros j b2 b3 h1 Q1 E2 H1 HQ1. eapply sim_mconstruct; eauto; lia.
  - exact E1.
  - exact H.
  - intros h1 H1. eapply sim_destroy; eauto. lia.

Qed.
Lemma sim_shiftDown b p size index n b' h px (Q : unit -> heap -> Prop) : ArrayManip.shiftDown chk triv b p size index n = Ok b' -> Rel b h -> px = o + p ->
  (forall h', Rel b' h' -> Q tt h') -> wp (p_shiftDown V W chk bd triv px size index n) h Q.
Proof.
  intros E H Ep HQ. unfold ArrayManip.shiftDown in E. binv E u Eu. unfold p_shiftDown. apply wp_bind. eapply sim_check; eauto.
  destruct (n =? 0); [injection E as <-; cbn; auto|]. eapply sim_up; eauto.
  cbn. intros j b2 b3 h1 Q1 E2 H1 HQ1. binv E2 d Ed. apply wp_bind. eapply wp_lift.
  - replace (px + j) with (o + (p + j)) by lia. eapply sub_ix_shift; eauto.
  - eapply sim_massign; eauto. lia.
Qed.
Lemma sim_erase b p size index n b' h px (Q : unit -> heap -> Prop) : ArrayManip.erase chk triv b p size index n = Ok b' -> Rel b h -> px = o + p ->
  (forall h', Rel b' h' -> Q tt h') -> wp (p_erase V W chk bd triv px size index n) h Q.
Proof.
  intros E H Ep HQ. unfold ArrayManip.erase in E. unfold p_erase. destruct (n =? 0); [injection E as <-; cbn; auto|].
  binv E u Eu. binv E w Ew. binv E b1 E1. binv E d Ed.
  apply wp_bind. eapply sim_check; eauto. apply wp_bind. eapply sim_check; eauto. apply wp_bind. eapply sim_shiftDown; eauto.
  intros h1 H1. apply wp_bind. eapply wp_lift.
  - replace (px + size) with (o + (p + size)) by lia. eapply sub_ix_shift; eauto.
  - eapply sim_destroy; eauto.
Qed.
Lemma sim_append vs : forall b p size i b' n h px (Q : nat -> heap -> Prop), ArrayManip.append_loop triv b p size i vs = Ok (b', n) -> Rel b h -> px = o + p ->
  (forall h', Rel b' h' -> Q n h') -> wp (p_append_loop V W bd triv px size i vs) h Q.
Proof.
  induction vs as [|v vs IH]; intros b p size i b' n h px Q E H Ep HQ; cbn in E |- *.
  - injection E as <- <-. auto.
  - binv E b1 E1. apply (wp_bind R O (p_place V W bd triv _ (Obj v))). eapply sim_place; [exact E1|exact H|lia|]. intros h1 H1. eapply IH; eauto.
Qed.
Lemma sim_emplace b p size index v b' h px (Q : unit -> heap -> Prop) : ArrayManip.emplace chk triv b p size index v = Ok b' -> Rel b h -> px = o + p ->
  (forall h', Rel b' h' -> Q tt h') -> wp (p_emplace V W chk bd triv px size index v) h Q.
Proof.
  intros E H Ep HQ. unfold ArrayManip.emplace in E. binv E u Eu. binv E b1 E1. unfold p_emplace. apply wp_bind. eapply sim_check; eauto.
  apply wp_bind. eapply sim_shiftUp; eauto. intros h1 H1. eapply sim_place; eauto. lia.
Qed.
Lemma sim_insert b p size index vs b' h px (Q : unit -> heap -> Prop) : ArrayManip.insert chk triv b p size index vs = Ok b' -> Rel b h -> px = o + p ->
  (forall h', Rel b' h' -> Q tt h') -> wp (p_insert V W chk bd triv px size index vs) h Q.
Proof.
  intros E H Ep HQ. unfold ArrayManip.insert in E. binv E u Eu. binv E b1 E1. unfold p_insert. apply wp_bind. eapply sim_check; eauto.
  apply wp_bind. eapply sim_shiftUp; eauto. intros h1 H1. eapply sim_copy; eauto. lia.
Qed.
End Buf.

Section SortedSim.
Variables V W X : Type.
Variables R O : area.
Variable chk tv : bool.
Variable lt eqb : V -> V -> bool.
Variable cb : callbacks V X.
Variable inc : nat -> prog V W nat.
Variable ev : event -> prog V W unit.
Variable o : nat.
Notation heap := (heap V W).
Notation wp := (@wp V W R O _).
Variable Rel : buf V -> X -> heap -> Prop.
Hypothesis Hget : forall x, @can_read V W R BVals o (fun b => Rel b x).
Hypothesis Hset : forall x, @can_write V W O BVals o (fun b => Rel b x).
Hypothesis Hinc : forall k b x b' x' p' h (Q : nat -> heap -> Prop), cb_inc cb k (b, x) = Ok (b', x', p') -> Rel b x h ->
  (forall h', Rel b' x' h' -> Q (o + p') h') -> wp (inc k) h Q.
Hypothesis Hev : forall e b x x' h (Q : unit -> heap -> Prop), cb_ev cb e x = Ok x' -> Rel b x h ->
  (forall h', Rel b x' h' -> Q tt h') -> wp (ev e) h Q.

Lemma s_rd b x i v h ix (Q : V -> heap -> Prop) : rd b i = Ok v -> Rel b x h -> ix = o + i -> Q v h -> wp (p_rd V W BVals ix) h Q.
Proof. intros E H Ei HQ. exact (@sim_rd V W R O BVals o _ (@Hget x) b i v h ix Q E H Ei HQ). Qed.
Lemma s_place b x i v b' h ix (Q : unit -> heap -> Prop) : construct tv b i v = Ok b' -> Rel b x h -> ix = o + i ->
  (forall h', Rel b' x h' -> Q tt h') -> wp (p_place V W BVals tv ix (Obj v)) h Q.
Proof. intros E H Ei HQ. exact (@sim_place V W R O BVals o tv _ (@Hget x) (@Hset x) b i (Obj v) b' h ix Q E H Ei HQ). Qed.

Lemma sim_find_loop fuel : forall b x p value lower upper k h px (Q : nat -> heap -> Prop),
  find_loop lt fuel b p value lower upper = Ok k -> Rel b x h -> px = o + p -> Q k h -> wp (p_find_loop W lt fuel px value lower upper) h Q.
Proof.
  induction fuel as [|fuel IH]; intros b x p value lower upper k h px Q E H Ep HQ; cbn [find_loop p_find_loop] in *.
  - destruct (lower =? upper); [injection E as <-; exact HQ|discriminate].
  - destruct (lower =? upper); [injection E as <-; exact HQ|]. binv E y Ey. apply wp_bind.
    eapply s_rd; [exact Ey|exact H|lia|]. destruct (lt y value); eapply IH; eauto.
Qed.
Lemma sim_find b x p size value k h px (Q : nat -> heap -> Prop) :
  find lt b p size value = Ok k -> Rel b x h -> px = o + p -> Q k h -> wp (p_find W lt px size value) h Q.
Proof. apply sim_find_loop. Qed.

Lemma sim_remove b x p size value b' x' r h px (Q : bool -> heap -> Prop) : remove chk tv lt eqb cb b x p size value = Ok (b', x', r) ->
  Rel b x h -> px = o + p -> (forall h', Rel b' x' h' -> Q r h') -> wp (p_remove chk tv lt eqb ev px size value) h Q.
Proof.
  intros E H Ep HQ. unfold remove in E. binv E k Ek. unfold p_remove. apply wp_bind. eapply sim_find; eauto.
  destruct (k =? size); [injection E as <- <- <-; cbn; auto|]. binv E y Ey. apply wp_bind. eapply s_rd; [exact Ey|exact H|lia|].
  destruct (negb (eqb y value)); [injection E as <- <- <-; cbn; auto|]. binv E b1 E1. binv E x1 Ex. injection E as <- <- <-.
  apply wp_bind. eapply (@sim_erase V W R O chk BVals o tv _ (@Hget x) (@Hset x)); [exact E1|exact H|exact Ep|].
  intros h1 H1. apply wp_bind. eapply Hev; eauto.
Qed.
Lemma sim_seek vs : forall b x p size pos np next h px (Q : nat * list V -> heap -> Prop), seek lt eqb b p size pos vs = Ok (np, next) ->
  Rel b x h -> px = o + p -> Q (np, next) h -> wp (p_seek W lt eqb px size pos vs) h Q.
Proof.
  induction vs as [|v vs IH]; intros b x p size pos np next h px Q E H Ep HQ; cbn [seek p_seek] in *.
  - injection E as <- <-. exact HQ.
  - binv E k Ek. apply wp_bind. eapply sim_find; [exact Ek|exact H|lia|].
    destruct (pos + k =? size); [injection E as <- <-; exact HQ|]. binv E y Ey. apply wp_bind. eapply s_rd; [exact Ey|exact H|lia|].
    destruct (eqb y v); [injection E as <- <-; exact HQ|]. eapply IH; eauto.
Qed.
Lemma sim_remove_loop fuel : forall b x p size nR pos vs b' x' r h px (Q : nat -> heap -> Prop),
  remove_loop chk tv lt eqb cb fuel b x p size nR pos vs = Ok (b', x', r) ->
  Rel b x h -> px = o + p -> (forall h', Rel b' x' h' -> Q r h') -> wp (p_remove_loop chk tv lt eqb ev fuel px size nR pos vs) h Q.
Proof.
  induction fuel as [|fuel IH]; intros b x p size nR pos vs b' x' r h px Q E H Ep HQ; cbn [remove_loop p_remove_loop] in *;
    (destruct vs as [|v rest]; [injection E as <- <- <-; cbn; auto|]); [discriminate|].
  binv E sn Es. destruct sn as [np next]. binv E b1 E1. binv E x1 Ex.
  apply wp_bind. eapply sim_seek; [exact Es|exact H|exact Ep|]. cbv beta zeta. cbn [fst snd].
  apply wp_bind. eapply (@sim_shiftDown V W R O chk BVals o tv _ (@Hget x) (@Hset x)); [exact E1|exact H|exact Ep|].
  intros h1 H1. apply wp_bind. eapply Hev; [exact Ex|exact H1|]. intros h2 H2.
  destruct (_ =? size); [injection E as <- <- <-; cbn; auto|]. eapply IH; eauto.
Qed.
Lemma sim_removes b x p size vs b' x' r h px (Q : nat -> heap -> Prop) : removes chk tv lt eqb cb b x p size vs = Ok (b', x', r) ->
  Rel b x h -> px = o + p -> (forall h', Rel b' x' h' -> Q r h') -> wp (p_removes chk tv lt eqb ev px size vs) h Q.
Proof.
  intros E H Ep HQ. unfold removes in E. binv E sn Es. destruct sn as [pos found]. unfold p_removes. apply wp_bind.
  eapply sim_seek; [exact Es|exact H|exact Ep|]. cbv beta. cbn [fst snd].
  destruct found as [|f fs]; [injection E as <- <- <-; cbn; auto|]. binv E bxn En. destruct bxn as [[b1 x1] nR].
  binv E b2 E2. injection E as <- <- <-. apply wp_bind. eapply sim_remove_loop; [exact En|exact H|exact Ep|].
  intros h1 H1. apply wp_bind. eapply (@sim_up V W R O BVals (fun b => Rel b x1)); [|exact E2|exact H1|cbn; auto].
  cbn. intros j c c' h2 Q2 E3 H2 HQ2. eapply (@sim_destroy1 V W R O BVals o tv _ (@Hget x1) (@Hset x1)); eauto. lia.
Qed.

Lemma sim_insert_pos b x p size value k h px (Q : nat -> heap -> Prop) : insert_pos lt b p size value = Ok k ->
  Rel b x h -> px = o + p -> Q k h -> wp (p_insert_pos W lt px size value) h Q.
Proof.
  intros E H Ep HQ. unfold insert_pos in E. unfold p_insert_pos. destruct (size =? 0); [injection E as <-; exact HQ|].
  binv E y Ey. apply wp_bind. eapply s_rd; [exact Ey|exact H|lia|]. destruct (lt value y); [injection E as <-; exact HQ|].
  binv E z Ez. apply wp_bind. eapply s_rd; [exact Ez|exact H|lia|]. destruct (lt z value); [injection E as <-; exact HQ|].
  eapply sim_find; eauto.
Qed.
Lemma sim_test b x p pos bound none test r h px (Q : bool -> heap -> Prop) :
  (if pos =? bound then Ok none else y <- rd b (p + pos) ;; Ok (test y)) = Ok r ->
  Rel b x h -> px = o + p -> Q r h -> wp (p_test W px pos bound none test) h Q.
Proof.
  intros E H Ep HQ. unfold p_test. destruct (pos =? bound); [injection E as <-; exact HQ|]. binv E y Ey. injection E as <-.
  apply wp_bind. eapply s_rd; [exact Ey|exact H|lia|exact HQ].
Qed.
Lemma sim_set_insert b x p size value b' x' r h px (Q : bool -> heap -> Prop) : insert chk tv lt eqb cb b x p size value = Ok (b', x', r) ->
  Rel b x h -> px = o + p -> (forall h', Rel b' x' h' -> Q r h') -> wp (p_set_insert chk tv lt eqb inc ev px size value) h Q.
Proof.
  intros E H Ep HQ. unfold insert in E. binv E pos E1. binv E pr E2. unfold p_set_insert. apply wp_bind.
  eapply sim_insert_pos; [exact E1|exact H|exact Ep|]. apply wp_bind. eapply sim_test with (test := fun y => eqb y value); [exact E2|exact H|exact Ep|].
  destruct pr.
  - binv E bx Ei. destruct bx as [[b1 x1] q]. injection E as <- <- <-. apply wp_bind. eapply Hinc; [exact Ei|exact H|cbn; auto].
  - binv E bx Ei. destruct bx as [[b1 x1] q]. binv E b2 E3. binv E x2 Ex. injection E as <- <- <-.
    apply wp_bind. eapply Hinc; [exact Ei|exact H|]. intros h1 H1. apply wp_bind.
    eapply (@sim_emplace V W R O chk BVals o tv _ (@Hget x1) (@Hset x1)); [exact E3|exact H1|reflexivity|].
    intros h2 H2. apply wp_bind. eapply Hev; [exact Ex|exact H2|cbn; auto].
Qed.
Lemma sim_set_loop vs : forall b x p n b' x' r h px (Q : nat -> heap -> Prop), set_loop tv cb b x p n vs = Ok (b', x', r) ->
  Rel b x h -> px = o + p -> (forall h', Rel b' x' h' -> Q r h') -> wp (p_set_loop tv ev px n vs) h Q.
Proof.
  induction vs as [|v vs IH]; intros b x p n b' x' r h px Q E H Ep HQ; cbn [set_loop p_set_loop] in *.
  - injection E as <- <- <-. cbn. auto.
  - binv E b1 E1. binv E x1 Ex. apply wp_bind. eapply s_place; [exact E1|exact H|lia|]. intros h1 H1. apply wp_bind.
    eapply Hev; [exact Ex|exact H1|]. intros h2 H2. eapply IH; eauto.
Qed.
Lemma sim_count_loop rvs : forall b x p size ub n k h px (Q : nat -> heap -> Prop), count_loop lt eqb b p size ub n rvs = Ok k ->
  Rel b x h -> px = o + p -> Q k h -> wp (p_count_loop W lt eqb px size ub n rvs) h Q.
Proof.
  induction rvs as [|v rvs IH]; intros b x p size ub n k h px Q E H Ep HQ; cbn [count_loop p_count_loop] in *.
  - injection E as <-. exact HQ.
  - binv E u Eu. binv E ab Ea. apply wp_bind. eapply sim_find; [exact Eu|exact H|exact Ep|]. apply wp_bind.
    eapply sim_test with (test := fun y => negb (eqb y v)); [exact Ea|exact H|exact Ep|]. eapply IH; eauto.
Qed.
Lemma sim_insert_loop rvs : forall b x p ub nLeft b' x' h px (Q : unit -> heap -> Prop), insert_loop chk tv lt eqb cb b x p ub nLeft rvs = Ok (b', x') ->
  Rel b x h -> px = o + p -> (forall h', Rel b' x' h' -> Q tt h') -> wp (p_insert_loop chk tv lt eqb ev px ub nLeft rvs) h Q.
Proof.
  induction rvs as [|v rvs IH]; intros b x p ub nLeft b' x' h px Q E H Ep HQ; cbn [insert_loop p_insert_loop] in *.
  - injection E as <- <-. cbn. auto.
  - binv E pos E1. binv E pr E2. apply wp_bind. eapply sim_find; [exact E1|exact H|exact Ep|]. apply wp_bind.
    eapply sim_test with (test := fun y => eqb y v); [exact E2|exact H|exact Ep|]. destruct pr; [eapply IH; eauto|].
    binv E b1 E3. binv E d Ed. binv E b2 E4. binv E x1 Ex. apply wp_bind.
    eapply (@sim_shiftUp V W R O chk BVals o tv _ (@Hget x) (@Hset x)); [exact E3|exact H|exact Ep|]. intros h1 H1. apply wp_bind.
    eapply wp_lift; [replace (px + pos + nLeft) with (o + (p + pos + nLeft)) by lia; eapply sub_ix_shift; exact Ed|].
    apply wp_bind. eapply s_place; [exact E4|exact H1|reflexivity|]. intros h2 H2. apply wp_bind.
    eapply Hev; [exact Ex|exact H2|]. intros h3 H3. eapply IH; eauto.
Qed.
Lemma sim_inserts b x p size vs b' x' r h px (Q : nat -> heap -> Prop) : inserts chk tv lt eqb cb b x p size vs = Ok (b', x', r) ->
  Rel b x h -> px = o + p -> (forall h', Rel b' x' h' -> Q r h') -> wp (p_inserts chk tv lt eqb inc ev px size vs) h Q.
Proof.
  intros E H Ep HQ. unfold inserts in E. unfold p_inserts. destruct (size =? 0).
  - binv E bx Ei. destruct bx as [[b1 x1] q]. apply wp_bind. eapply Hinc; [exact Ei|exact H|]. intros h1 H1. eapply sim_set_loop; eauto.
  - binv E k Ek. binv E bx Ei. destruct bx as [[b1 x1] q]. apply wp_bind. eapply sim_count_loop; [exact Ek|exact H|exact Ep|].
    apply wp_bind. eapply Hinc; [exact Ei|exact H|]. intros h1 H1. destruct (k =? 0); [injection E as <- <- <-; cbn; auto|].
    binv E bx2 E2. destruct bx2 as [b2 x2]. injection E as <- <- <-. apply wp_bind. eapply sim_insert_loop; [exact E2|exact H1|reflexivity|cbn; auto].
Qed.
End SortedSim.
