(** Copies and moves of arrays and sorted arrays. *)
From Coq Require Import List Arith ZArith Lia Bool Sorting.Sorted.
From Verif Require Import Base BaseProofs Mem MemProofs BufferManip BufferManipProofs Indexing IndexingSpec IndexingProofs Array ArraySpec
  ArrayProofs ArrayProofs2 ArrayProofs3 Values ValuesSpec ValuesProofs ValuesProofs2 CopyMove.
Import ListNotations.
Set Implicit Arguments.
Unset Strict Implicit.

Section Buffers.
Variable V : Type.
Variable chk triv : bool.
Variable dflt : V.
Notation holds := (@holds V triv).

Lemma reassign (b : buf V) vs i v : holds b vs -> nth_error vs i = Some v -> oks (assign triv b i v) (fun b' => holds b' vs /\ length b' = length b).
Proof.
  intros [k M] E. assert (Hi : i < length vs) by (apply nth_error_Some; congruence). destruct (split_nth vs Hi) as (x & y & z & -> & Lx).
  rewrite <- Lx, nth_error_app2, Nat.sub_diag in E by lia. injection E as ->.
  assert (M' : mem triv b (map (@LV V) x ++ LV v :: (map (@LV V) z ++ repeat LN k))) by (eapply mem_cast; [exact M|]; rewrite map_app; simpl; rewrite <- app_assoc; auto).
  destruct (@assign_ok V triv b (map (@LV V) x) (LV v) (map (@LV V) z ++ repeat LN k) i v M') as (b' & E' & Mb); [len|discriminate|].
  exists b'. split; [exact E'|]. split; [|eapply assign_length; exact E']. exists k. eapply mem_cast; [exact Mb|]. rewrite map_app. simpl. rewrite <- app_assoc. auto.
Qed.
Lemma copyIntoSelf_ok b vs : holds b vs -> oks (copyIntoSelf chk triv dflt b (length vs)) (fun b' => holds b' vs).
Proof.
  intros H. unfold copyIntoSelf. rewrite check_ok by (eapply holds_cap; exact H). cbn [bind]. eapply oks_bind; [apply resize_ok; [exact H|left; reflexivity]|].
  intros b1 [H1 L1]. assert (E1 : list_resize vs (length vs) dflt = vs) by (unfold list_resize; rewrite firstn_all, Nat.sub_diag; apply app_nil_r). rewrite E1 in H1.
  eapply oks_mono; [apply (@oks_for_up (buf V) (fun _ b => holds b vs)); [exact H1|]|intros b' Hb; exact Hb].
  intros i b' Hi Hb. destruct (nth_error vs i) as [v|] eqn:Ev; [|apply nth_error_None in Ev; lia]. rewrite (@holds_rd V triv b' vs i v Hb Ev). cbn [bind].
  eapply oks_mono; [eapply reassign; eassumption|]. intros b2 [H2 _]. exact H2.
Qed.
Lemma nil_holds : holds [] [].
Proof. exists 0. constructor. Qed.
Lemma holds_nil vs : holds [] vs -> vs = [].
Proof. intros H. apply holds_cap in H. destruct vs; [reflexivity|cbn in H; lia]. Qed.
End Buffers.

(** ** One dimension *)
Section Vec.
Variable V : Type.
Variable chk triv : bool.
Variable dflt : V.
Notation holds := (@holds V triv).
Notation step := (vstep chk triv BMalloc [0] dflt).

(** An array of one dimension, whatever its stride. *)
Definition vec (a : array V) (l : list V) : Prop :=
  a_dims a = [length l] /\ length (a_strides a) = 1 /\ a_rix a = 0 /\ holds (a_buf a) l.
Definition close (o o' : outcome (array V)) : Prop :=
  match o, o' with
  | Ok a, Ok a' => a_dims a = a_dims a' /\ length (a_strides a) = 1 /\ a_rix a = a_rix a' /\ a_buf a = a_buf a'
  | Abort, Abort => True
  | Fault f, Fault g => f = g
  | _, _ => False
  end.
Lemma close_bind {X} (o : outcome X) (f g : X -> outcome (array V)) : (forall x, close (f x) (g x)) -> close (bind o f) (bind o g).
Proof. intros H. destruct o; cbn; auto. Qed.
Lemma vstep_close c n x y b : close (step c (mkArray [n] [x] 0 b)) (step c (mkArray [n] [y] 0 b)).
Proof.
  destruct c; cbn [vstep]; unfold emplace_back, emplace, insert, pop_back, erase, resizeDefaultDimension, reserve, clear, set_, size, set_dim0, set_shape; cbn [a_dims a_strides a_rix a_buf].
  1,2,4,5: (apply close_bind; intros; cbn; auto).
  - apply close_bind; intros [b1 k]; cbn; auto.
  - apply close_bind; intros; cbn [length Nat.eqb orb]; apply close_bind; intros; cbn; auto.
  - apply close_bind; intros; cbn [length Nat.eqb orb]; apply close_bind; intros; cbn; auto.
  - apply close_bind; intros; cbn; auto.
  - apply close_bind; intros; cbn; auto.
  - assert (E : forall s, slice_call chk (toSlice [0] (mkArray [n] [s] 0 b)) [i] = slice_call chk (toSlice [0] (mkArray [n] [1] 0 b)) [i]) by (intros; reflexivity).
    rewrite (E x), (E y). apply close_bind; intros. apply close_bind; intros. apply close_bind; intros. cbn. auto.
Qed.
Lemma vec_arr a l : vec a l -> exists n x b, a = mkArray [n] [x] 0 b /\ n = length l /\ holds b l /\ arr_ok triv [0] (mkArray [n] [1] 0 b) l.
Proof.
  destruct a as [d s r b]. unfold vec. cbn. intros (-> & Ls & -> & H). destruct s as [|x [|]]; cbn in Ls; try lia. exists (length l), x, b. repeat split; auto.
  cbn. lia.
Qed.
Lemma vec_step c a l l' : vec a l -> vector dflt c l = Some l' -> exists a', step c a = Ok a' /\ vec a' l'.
Proof.
  intros Va X. destruct (vec_arr Va) as (n & x & b & -> & _ & H & A). destruct (@vstep_ok V chk triv BMalloc dflt c _ l l' A X) as (a' & E & A' & _); [left; reflexivity|].
  pose proof (vstep_close c n x 1 b) as C. rewrite E in C. destruct (step c (mkArray [n] [x] 0 b)) as [a1| |]; try contradiction.
  destruct C as (C1 & C2 & C3 & C4). exists a1. split; [reflexivity|]. apply arr1 in A'. destruct A' as (D & _ & R & Hb). unfold vec. rewrite C1, C3, C4. auto.
Qed.
Lemma vec_size a l : vec a l -> size a = length l.
Proof. intros (D & _). unfold size. rewrite D. reflexivity. Qed.
Lemma vec_assign a l b k : vec a l -> vec b k -> exists c, array_assign chk triv [0] dflt a b = Ok c /\ vec c k.
Proof.
  intros Va Vb. unfold array_assign. rewrite (vec_size Va), (vec_size Vb). destruct Va as (_ & _ & _ & Ha). destruct Vb as (D & S & R & Hb).
  destruct (@copyInto_ok V chk triv BMalloc _ _ l k dflt Ha Hb) as (b' & -> & Hb' & _); [left; reflexivity|]. cbn [bind]. rewrite R. unfold setSingleParameterResizeIndex. cbn [error_if Z.ltb Z.leb bind length]. cbn.
  eexists. split; [reflexivity|]. unfold vec. cbn. auto.
Qed.
Lemma vec_assign_self a l : vec a l -> exists c, array_assign_self chk triv [0] dflt a = Ok c /\ vec c l.
Proof.
  intros Va. unfold array_assign_self. rewrite (vec_size Va). destruct Va as (D & S & R & Ha). destruct (copyIntoSelf_ok chk dflt Ha) as (b & -> & Hb). cbn [bind]. rewrite R.
  unfold setSingleParameterResizeIndex. cbn. eexists. split; [reflexivity|]. unfold vec. cbn. auto.
Qed.
Lemma vec_shows a l : vec a l -> shows chk [0] a l.
Proof.
  intros Va. destruct (vec_arr Va) as (n & x & b & -> & _ & _ & A). apply (arr_shows chk) in A. exact A.
Qed.
Lemma vec_dtor a l : vec a l -> dtor chk triv BMalloc a = Ok tt.
Proof. intros Va. destruct (vec_arr Va) as (n & x & b & -> & _ & _ & A). apply (ArrayProofs2.dtor_ok chk BMalloc) in A. exact A. Qed.
Lemma vec_storage a l : vec a l -> storage triv a l.
Proof. intros (_ & _ & _ & H). destruct a. apply holds_storage. exact H. Qed.

Definition vplains := plains (F := vcall V) (@nil V) [] (vector dflt) (fun _ w => Some w) (@Some _) (fun _ => []) true void_list.
Lemma vec_program p e : vplains p ([], []) = Some e ->
  exists st, executes (array_class chk triv [0] dflt step) p (mkState [] []) = Ok st /\
    final (array_class chk triv [0] dflt step) void_list (fun v l => vec (pack v) l) st e.
Proof.
  intros H. eapply program_ok with (12 := H).
  1: reflexivity.
  1: intros [|c s] E; [reflexivity|discriminate].
  1: reflexivity.
  - cbn. repeat split. apply nil_holds.
  - cbn. repeat split. apply nil_holds.
  - intros f v x x' Rv Hx. destruct (vec_step Rv Hx) as (a' & E & Va). cbn. rewrite E. cbn. eexists. split; [reflexivity|]. destruct a'. exact Va.
  - intros v x w y z Rv Rw Hz. injection Hz as ->. destruct (vec_assign Rv Rw) as (a' & E & Va). cbn. rewrite E. cbn. eexists. split; [reflexivity|]. destruct a'. exact Va.
  - intros v x z Rv Hz. injection Hz as ->. destruct (vec_assign_self Rv) as (a' & E & Va). cbn. rewrite E. cbn. eexists. split; [reflexivity|]. destruct a'. exact Va.
  - intros [[d s] r] b x (D & S & R & Hb). cbn in *. subst d r. unfold vec. cbn. rewrite map_length. repeat split; auto. apply nil_holds.
  - intros v x Rv. apply (vec_dtor Rv).
  - intros [[d s] r] x (_ & _ & _ & Hb). cbn in Hb. apply holds_nil in Hb. subst x. reflexivity.
Qed.
End Vec.

(** ** Any number of dimensions *)
Section Nd.
Variable V : Type.
Variable chk triv : bool.
Variable perm : list nat.
Variable dflt : V.
Hypothesis P : is_permutation perm (length perm).
Hypothesis NZ : 0 < length perm.
Notation NDIM := (length perm).
Notation arr_ok := (@arr_ok V triv perm).
Notation step := (nstep chk triv BMalloc perm dflt).

(** As after construction and calls, or as after a move: no extents, arbitrary strides. *)
Definition nd (a : array V) (vs : list V) : Prop :=
  arr_ok (mkArray (a_dims a) (calculateStrides perm (a_dims a)) (a_rix a) (a_buf a)) vs /\
  (a_strides a = calculateStrides perm (a_dims a) \/ Forall (fun d => d = 0) (a_dims a)).
Lemma nd_arr a vs : arr_ok a vs -> nd a vs.
Proof. intros (L & S & R). split; [split; [exact L|split; [reflexivity|exact R]]|auto]. Qed.
Lemma zeros_prod l : 0 < length l -> Forall (fun d => d = 0) l -> prod l = 0.
Proof. intros H F. destruct F as [|d l -> F]; [cbn in H; lia|reflexivity]. Qed.
Lemma zeros_upd l i n : 2 <= length l -> Forall (fun d => d = 0) l -> prod (upd l i n) = 0.
Proof.
  intros H F. destruct l as [|d l]; [cbn in H; lia|]. inversion F; subst. destruct i as [|i]; cbn [upd].
  - cbn [prod fold_right]. destruct l as [|d l]; [cbn in H; lia|]. inversion H3; subst. cbn. apply Nat.mul_0_r.
  - reflexivity.
Qed.

Lemma nd_step c a vs dims' r' : nd a vs -> static_ok NDIM c -> extents c (a_dims a, a_rix a) = Some (dims', r') ->
  exists a', step c a = Ok a' /\ (exists vs', nd a' vs') /\ a_dims a' = dims' /\ a_rix a' = r'.
Proof.
  intros [A [S|Z]] So X.
  - assert (A' : arr_ok a vs) by (destruct a as [d s r b]; cbn in *; rewrite S; exact A).
    destruct (@nstep_ok V chk triv BMalloc perm dflt P NZ c a vs dims' r' eq_refl A' So X) as (a' & E & (vs' & A2) & D & R). exists a'. split; [exact E|]. split; [|auto]. exists vs'. apply nd_arr. exact A2.
  - set (a0 := mkArray (a_dims a) (calculateStrides perm (a_dims a)) (a_rix a) (a_buf a)) in *.
    destruct (@nstep_ok V chk triv BMalloc perm dflt P NZ c a0 vs dims' r' eq_refl A So X) as (a' & E & (vs' & A2) & D & R).
    pose proof A as (La & _ & Ra & Lv & Hb). cbn in La, Ra, Lv, Hb.
    assert (Keep : forall o : outcome (array V), (o = Ok a' -> exists a2, step c a = Ok a2 /\ a_dims a2 = a_dims a' /\ a_rix a2 = a_rix a' /\ a_buf a2 = a_buf a' /\ (a_strides a2 = a_strides a' \/ a_dims a2 = a_dims a)) ->
      o = Ok a' -> exists a2, step c a = Ok a2 /\ (exists vs', nd a2 vs') /\ a_dims a2 = dims' /\ a_rix a2 = r').
    { intros o Ho Eo. destruct (Ho Eo) as (a2 & E2 & D2 & R2 & B2 & S2). exists a2. split; [exact E2|]. split; [|split; congruence]. exists vs'. destruct A2 as (L2 & St2 & Q2). split.
      - rewrite D2, R2, B2. split; [exact L2|]. split; [reflexivity|]. exact Q2.
      - rewrite D2 in *. destruct S2 as [S2|S2]; [left; congruence|]. right. rewrite S2. exact Z. }
    apply (Keep (step c a0)); [|exact E]. clear Keep. intros E0.
    destruct c; cbn [nstep] in *; unfold resize_dims, resizeDimension, resizeDefaultDimension, clear, setSingleParameterResizeIndex, reserve, set_, size, set_shape in *; cbn [a0 a_dims a_rix a_buf a_strides] in *.
    + exists a'. split; [exact E0|]. auto.
    + exists a'. split; [exact E0|]. auto.
    + destruct (n <? 0)%Z; cbn [error_if bind] in *; [discriminate|]. destruct ((NDIM =? 1) || (nth 0 perm 0 =? a_rix a))%bool eqn:C1.
      * exists a'. split; [exact E0|]. auto.
      * apply orb_false_iff in C1. destruct C1 as [C1 _]. apply Nat.eqb_neq in C1. rewrite !multiplyAll_prod in *. rewrite (zeros_upd _ _) in * by (auto; lia). rewrite (zeros_prod) in * by (auto; lia).
        cbn [Nat.eqb] in *. exists a'. split; [exact E0|]. auto.
    + destruct (n <? 0)%Z; cbn [error_if bind] in *; [discriminate|]. destruct ((NDIM =? 1) || (nth 0 perm 0 =? a_rix a))%bool eqn:C1.
      * exists a'. split; [exact E0|]. auto.
      * apply orb_false_iff in C1. destruct C1 as [C1 _]. apply Nat.eqb_neq in C1. rewrite !multiplyAll_prod in *. rewrite (zeros_upd _ _) in * by (auto; lia). rewrite (zeros_prod) in * by (auto; lia).
        cbn [Nat.eqb] in *. exists a'. split; [exact E0|]. auto.
    + exists a'. split; [exact E0|]. auto.
    + destruct (error_if (i <? 0)%Z); cbn [bind] in *; try discriminate. destruct (error_if (Z.of_nat NDIM <=? i)%Z); cbn [bind] in *; try discriminate. injection E0 as <-.
      eexists. split; [reflexivity|]. cbn. auto.
    + destruct (BufferManip.reserve chk triv BMalloc (a_buf a) (multiplyAll (a_dims a)) (Z.to_nat n)); cbn [bind] in *; try discriminate. injection E0 as <-. eexists. split; [reflexivity|]. cbn. auto.
    + exfalso. cbn [extents] in X. destruct (inside (a_dims a) idx) eqn:I; [|discriminate]. apply inside_valid in I. destruct (a_dims a) as [|d ds]; [cbn in La; lia|].
      inversion Z; subst. inversion I; subst. lia.
Qed.
Lemma nd_size a vs : nd a vs -> size a = length vs.
Proof. intros [A _]. apply size_ok in A. exact A. Qed.
Lemma nd_facts a vs : nd a vs -> length (a_dims a) = NDIM /\ a_rix a < NDIM /\ length vs = prod (a_dims a) /\ holds triv (a_buf a) vs.
Proof. intros [(L & _ & R & Lv & H) _]. auto. Qed.
Lemma nd_assign a vs b ws : nd a vs -> nd b ws ->
  exists c, array_assign chk triv perm dflt a b = Ok c /\ nd c ws /\ a_dims c = a_dims b /\ a_strides c = a_strides b /\ a_rix c = a_rix b.
Proof.
  intros Na Nb. unfold array_assign. rewrite (nd_size Na), (nd_size Nb). destruct (nd_facts Na) as (_ & _ & _ & Ha). destruct (nd_facts Nb) as (L & R & Lv & Hb).
  destruct (@copyInto_ok V chk triv BMalloc _ _ vs ws dflt Ha Hb) as (b' & -> & Hb' & _); [left; reflexivity|]. cbn [bind]. unfold setSingleParameterResizeIndex.
  rewrite error_if_ok by (apply Z.ltb_ge; lia). cbn [bind]. rewrite error_if_ok by (apply Z.leb_gt; lia). cbn [bind]. rewrite Nat2Z.id. eexists. split; [reflexivity|]. cbn. split; [|auto].
  split; cbn.
  - split; [exact L|]. split; [reflexivity|]. cbn. auto.
  - destruct Nb as [_ S]. exact S.
Qed.
Lemma nd_assign_self a vs : nd a vs ->
  exists c, array_assign_self chk triv perm dflt a = Ok c /\ nd c vs /\ a_dims c = a_dims a /\ a_strides c = a_strides a /\ a_rix c = a_rix a.
Proof.
  intros Na. unfold array_assign_self. rewrite (nd_size Na). destruct (nd_facts Na) as (L & R & Lv & Ha).
  destruct (copyIntoSelf_ok chk dflt Ha) as (b' & -> & Hb'). cbn [bind]. unfold setSingleParameterResizeIndex.
  rewrite error_if_ok by (apply Z.ltb_ge; lia). cbn [bind]. rewrite error_if_ok by (apply Z.leb_gt; lia). cbn [bind]. rewrite Nat2Z.id. eexists. split; [reflexivity|]. cbn. split; [|auto].
  split; cbn.
  - split; [exact L|]. split; [reflexivity|]. cbn. auto.
  - destruct Na as [_ S]. exact S.
Qed.
Lemma nd_moved m b vs : nd (pack (m, b)) vs -> nd (pack (amoved m, [])) [] /\ a_dims (pack (V := V) (amoved m, [])) = repeat 0 NDIM /\ a_rix (pack (V := V) (amoved m, [])) = a_rix (pack (m, b)).
Proof.
  intros N. destruct (nd_facts N) as (L & R & _ & _). destruct m as [[d s] r]. cbn in *.
  assert (E : map (fun _ : nat => 0) d = repeat 0 NDIM) by (rewrite <- L; clear; induction d; cbn; congruence).
  split; [|auto]. split; cbn.
  - split; [cbn; rewrite map_length; exact L|]. split; [reflexivity|]. cbn. split; [exact R|]. split; [|apply nil_holds]. rewrite E. cbn. symmetry. apply zeros_prod; [rewrite repeat_length; exact NZ|].
    apply Forall_forall. intros x Hx. apply repeat_spec in Hx. exact Hx.
  - right. rewrite E. apply Forall_forall. intros x Hx. apply repeat_spec in Hx. exact Hx.
Qed.
Lemma nd_dtor a vs : nd a vs -> dtor chk triv BMalloc a = Ok tt.
Proof. intros [A _]. apply (ArrayProofs2.dtor_ok chk BMalloc) in A. exact A. Qed.
Lemma nd_at a b vs : nd a vs -> nd b vs -> a_dims a = a_dims b -> forall idx, valid_index (a_dims a) idx ->
  exists v, at_ chk perm a idx = Ok v /\ at_ chk perm b idx = Ok v.
Proof.
  intros [A Sa] [B Sb] E idx I. destruct Sa as [Sa|Sa].
  2:{ exfalso. destruct A as (La & _). cbn in La. destruct (a_dims a) as [|d ds]; [cbn in La; lia|]. inversion Sa; subst. inversion I; subst. lia. }
  destruct Sb as [Sb|Sb].
  2:{ exfalso. destruct B as (La & _). cbn in La. rewrite E in I. destruct (a_dims b) as [|d ds]; [cbn in La; lia|]. inversion Sb; subst. inversion I; subst. lia. }
  destruct (at_ok chk P NZ A (idx := idx)) as (v & Nv & Ev); [exact I|]. destruct (at_ok chk P NZ B (idx := idx)) as (v' & Nv' & Ev'); [cbn; rewrite <- E; exact I|].
  cbn in Nv, Nv'. rewrite E in Nv. rewrite Nv in Nv'. injection Nv' as <-. exists v. destruct a, b; cbn in *. rewrite Sa, Sb. auto.
Qed.

(** Programs, up to the shapes. *)
Definition has_shape (v : list nat * list nat * nat * buf V) (x : list nat * nat) : Prop :=
  (exists vs, nd (pack v) vs) /\ a_dims (pack v) = fst x /\ a_rix (pack v) = snd x.
Lemma shape_program p e : plains (F := ncall V) (repeat 0 NDIM, 0) (repeat 0 NDIM, 0) (shape_step NDIM) (fun _ w => Some w) (@Some _) no_extents true void_shape p ([], []) = Some e ->
  exists st, executes (array_class chk triv perm dflt step) p (mkState [] []) = Ok st /\
    final (array_class chk triv perm dflt step) void_shape has_shape st e.
Proof.
  intros H. eapply program_ok with (12 := H).
  1: reflexivity.
  1: intros [|c s] E; [reflexivity|discriminate].
  1: reflexivity.
  - split; [|cbn; auto]. exists []. apply nd_arr. apply (ArrayProofs2.new_ok V triv BMalloc P NZ).
  - split; [|cbn; auto]. exists []. apply nd_arr. apply (ArrayProofs2.new_ok V triv BMalloc P NZ).
  - intros f v x x' ((vs & Nv) & D & R) Hx. unfold shape_step in Hx. destruct x as [d r], x' as [d' r']. cbn in D, R. rewrite <- D, <- R in Hx.
    assert (static_ok NDIM f /\ extents f (a_dims (pack v), a_rix (pack v)) = Some (d', r')) as [So Hx'].
    { destruct f; try (split; [exact Logic.I|exact Hx]). destruct (forallb (fun p => fst p <? NDIM) pairs) eqn:B; [|discriminate]. split; [|exact Hx].
      rewrite forallb_forall in B. apply Forall_forall. intros q Hq. apply B in Hq. apply Nat.ltb_lt in Hq. exact Hq. }
    destruct (nd_step Nv So Hx') as (a' & E & Nv' & D' & R'). cbn. rewrite E. cbn. eexists. split; [reflexivity|]. destruct a'. split; [exact Nv'|]. auto.
  - intros v x w y z ((vs & Nv) & _) ((ws & Nw) & D & R) Hz. injection Hz as <-. destruct (nd_assign Nv Nw) as (a' & E & N' & D' & _ & R'). cbn. rewrite E. cbn. eexists. split; [reflexivity|]. destruct a'. split; [exists ws; exact N'|]. cbn in *. split; congruence.
  - intros v x z ((vs & Nv) & D & R) Hz. injection Hz as <-. destruct (nd_assign_self Nv) as (a' & E & N' & D' & _ & R'). cbn. rewrite E. cbn. eexists. split; [reflexivity|]. destruct a'. split; [exists vs; exact N'|]. cbn in *. split; congruence.
  - intros m s x ((vs & Nv) & D & R). destruct (nd_moved Nv) as (N' & D' & R'). split; [exists []; exact N'|]. split; [|cbn [no_extents snd]; rewrite <- R; exact R'].
    cbn [no_extents fst]. rewrite <- D. destruct m as [[dd ss] rr]. reflexivity.
  - intros v x ((vs & Nv) & _). apply (nd_dtor Nv).
  - intros m x ((vs & Nv) & D & R). destruct (nd_facts Nv) as (_ & _ & Lv & Hb). destruct m as [[d s] r]. cbn in Hb, Lv, D. apply holds_nil in Hb. subst vs. unfold void_shape. rewrite <- D. apply Nat.eqb_eq. symmetry. exact Lv.
Qed.
End Nd.

(** ** Sorted arrays *)
From Verif Require Import SortedSpec SortedProofs SortedProofs2 SortedArray SortedArraySpec SortedArrayProofs.
Section Srt.
Variable V : Type.
Variable chk triv : bool.
Variable lt eqb : V -> V -> bool.
Variable dflt : V.
Hypothesis T : total_order lt eqb.
Notation incr l := (StronglySorted (fun x y => lt x y = true) l).

Lemma incr_filter f l : incr l -> incr (filter f l).
Proof.
  induction 1 as [|x l S IH Fx]; cbn; [constructor|]. destruct (f x); [|exact IH]. constructor; [exact IH|]. rewrite Forall_forall in *. intros y Hy. apply filter_In in Hy. apply Fx. tauto.
Qed.
Lemma incr_app l r : incr l -> incr r -> (forall x y, In x l -> In y r -> lt x y = true) -> incr (l ++ r).
Proof.
  induction 1 as [|x l S IH Fx]; intros Sr H; cbn; [exact Sr|]. constructor; [apply IH; [exact Sr|]; intros a b Ha Hb; apply H; [right; exact Ha|exact Hb]|].
  apply Forall_app. split; [exact Fx|]. apply Forall_forall. intros y Hy. apply H; [left; reflexivity|exact Hy].
Qed.
Lemma add_incr l v : incr l -> incr (add lt l v).
Proof.
  intros I. unfold add. pose proof (to_swo T) as W. apply incr_app; [apply incr_filter; exact I| |].
  - cbn. constructor; [apply incr_filter; exact I|]. apply Forall_forall. intros y Hy. apply filter_In in Hy. tauto.
  - intros x y Hx Hy. apply filter_In in Hx. cbn in Hy. destruct Hy as [<-|Hy]; [tauto|]. apply filter_In in Hy. eapply (swo_trans W); [apply Hx|apply Hy].
Qed.
Lemma add_in l v x : In x (add lt l v) <-> x = v \/ In x l.
Proof.
  unfold add. rewrite in_app_iff. cbn. rewrite !filter_In. split.
  - intros [[H _]|[H|[H _]]]; auto.
  - intros [->|H]; [auto|]. destruct (lt x v) eqn:E1; [auto|]. destruct (lt v x) eqn:E2; [auto|]. right. left. symmetry. apply (to_total T); assumption.
Qed.
Lemma adds_incr vs : forall l, incr l -> incr (fold_left (add lt) vs l).
Proof. induction vs as [|v vs IH]; intros l I; cbn; [exact I|]. apply IH, add_incr, I. Qed.
Lemma adds_in vs : forall l x, In x (fold_left (add lt) vs l) <-> In x vs \/ In x l.
Proof. induction vs as [|v vs IH]; intros l x; cbn; [tauto|]. rewrite IH, add_in. intuition. Qed.
Lemma incr_unique l : forall l', incr l -> incr l' -> (forall x, In x l <-> In x l') -> l = l'.
Proof.
  pose proof (to_swo T) as W.
  induction l as [|x l IH]; intros [|y l'] S S' E; auto.
  - exfalso. apply (proj2 (E y)). left. reflexivity.
  - exfalso. apply (proj1 (E x)). left. reflexivity.
  - inversion S as [|? ? S1 F1]; subst. inversion S' as [|? ? S2 F2]; subst. rewrite Forall_forall in F1, F2.
    assert (x = y) as ->.
    { destruct (proj1 (E x) (or_introl eq_refl)) as [->|Hx]; [reflexivity|]. destruct (proj2 (E y) (or_introl eq_refl)) as [->|Hy]; [reflexivity|].
      pose proof (F1 y Hy) as A. pose proof (F2 x Hx) as B. pose proof (swo_trans W A B) as C. rewrite (swo_irr W) in C. discriminate. }
    f_equal. apply IH; auto. intros z. split; intros Hz.
    + destruct (proj1 (E z) (or_intror Hz)) as [<-|Hz']; [|exact Hz']. exfalso. pose proof (F1 y Hz) as A. rewrite (swo_irr W) in A. discriminate.
    + destruct (proj2 (E z) (or_intror Hz)) as [<-|Hz']; [|exact Hz']. exfalso. pose proof (F2 y Hz) as A. rewrite (swo_irr W) in A. discriminate.
Qed.
Lemma ascending_incr l : ascending lt l = true -> incr l.
Proof.
  pose proof (to_swo T) as W. induction l as [|x l IH]; intros A; [constructor|]. destruct l as [|y l]; [repeat constructor|]. cbn [ascending] in A. apply andb_true_iff in A. destruct A as [A B].
  specialize (IH B). constructor; [exact IH|]. constructor; [exact A|]. inversion IH as [|? ? _ Fy]; subst. rewrite Forall_forall in *. intros z Hz. eapply (swo_trans W); [exact A|apply Fy; exact Hz].
Qed.
Lemma incr_increasing l : incr l -> increasing lt l.
Proof.
  induction 1 as [|x l S IH Fx]; intros i j a b Hij Ha Hb; [destruct i; discriminate|]. destruct j as [|j]; [lia|]. destruct i as [|i]; cbn in *.
  - injection Ha as ->. rewrite Forall_forall in Fx. apply Fx. eapply nth_error_In. exact Hb.
  - eapply (IH i j); eauto. lia.
Qed.
Lemma without_in l vs x : In x (without eqb l vs) <-> In x l /\ ~ In x vs.
Proof.
  unfold without. rewrite filter_In. rewrite negb_true_iff. split; intros [H N]; (split; [exact H|]).
  - intros Hx. apply not_true_iff_false in N. apply N. apply existsb_exists. exists x. split; [exact Hx|]. apply (to_eq T). reflexivity.
  - apply not_true_iff_false. intros E. apply existsb_exists in E. destruct E as (y & Hy & E). apply (to_eq T) in E. subst y. contradiction.
Qed.
Notation sa_ok := (sa_ok triv lt).
Lemma sorted_step c a l l' : sa_ok a l -> set_step lt eqb c l = Some l' ->
  exists a' r, sstep chk triv BMalloc lt eqb dflt c a = Ok (a', r) /\ sa_ok a' l'.
Proof.
  intros A H. assert (Al : allowed lt c).
  { destruct c; cbn in *; auto; destruct (ascending lt vs) eqn:E; try discriminate; apply incr_increasing, ascending_incr; exact E. }
  destruct (sstep_ok chk dflt T A Al) as ([a' r] & E & (l1 & A1 & (In1 & _))). exists a', r. split; [exact E|]. cbn [fst snd] in *.
  assert (l1 = l') as <-; [|exact A1]. destruct A1 as (_ & _ & I1). destruct A as (_ & _ & I0). apply incr_unique; [exact I1| |].
  - destruct c; cbn in H; try (destruct (ascending lt vs) eqn:Ea; [|discriminate]); injection H as <-; auto using add_incr, adds_incr; try (apply incr_filter; exact I0). constructor.
  - intros x. rewrite In1. destruct c; cbn [set_after set_step] in *; try (destruct (ascending lt vs) eqn:Ea; [|discriminate]); injection H as <-.
    + rewrite add_in. tauto.
    + rewrite adds_in. tauto.
    + rewrite without_in. cbn. intuition.
    + rewrite without_in. tauto.
    + cbn. tauto.
    + tauto.
Qed.
Definition sorted_ok (v : nat * buf V) (l : list V) : Prop := sa_ok (mkS (snd v) (fst v)) l.
Lemma sorted_program p e : plains (F := scall V) [] [] (set_step lt eqb) (fun _ w => Some w) (@Some _) (fun _ => []) true void_list p ([], []) = Some e ->
  exists st, executes (sorted_class chk triv dflt lt eqb) p (mkState [] []) = Ok st /\ final (sorted_class chk triv dflt lt eqb) void_list sorted_ok st e.
Proof.
  intros H. eapply program_ok with (12 := H).
  1: reflexivity.
  1: intros [|c s] E; [reflexivity|discriminate].
  1: reflexivity.
  - apply new_s_ok.
  - apply new_s_ok.
  - intros f v x x' Rv Hx. destruct (sorted_step Rv Hx) as (a' & r & E & Va). cbn. rewrite E. cbn. eexists. split; [reflexivity|]. destruct a'. exact Va.
  - intros v x w y z (Hv & Sv & _) (Hw & Sw & Iw) Hz. injection Hz as <-. cbn [assign_copy sorted_class]. unfold s_assign. rewrite Sv, Sw.
    destruct (@copyInto_ok V chk triv BMalloc _ _ x y dflt Hv Hw) as (b & -> & Hb & _); [left; reflexivity|]. cbn. eexists. split; [reflexivity|]. split; [exact Hb|]. auto.
  - intros v x z (Hv & Sv & Iv) Hz. injection Hz as <-. cbn [assign_self sorted_class]. unfold s_assign_self. rewrite Sv. destruct (copyIntoSelf_ok chk dflt Hv) as (b & -> & Hb).
    cbn. eexists. split; [reflexivity|]. split; [exact Hb|]. auto.
  - intros m s x _. split; [apply nil_holds|]. split; [reflexivity|constructor].
  - intros v x (Hv & Sv & Iv). cbn. unfold s_dtor. rewrite Sv. destruct (free_ok chk BMalloc Hv) as (b & -> & _). reflexivity.
  - intros m x (Hb & _). apply holds_nil in Hb. subst x. reflexivity.
Qed.
End Srt.
