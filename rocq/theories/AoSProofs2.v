(** Assimilating an ArrayOfArrays into an ArrayOfSets. *)
From Coq Require Import List Arith ZArith Lia Bool Sorting.Sorted Permutation.
From Verif Require Import Base BaseProofs Mem MemProofs ArrayManipProofs BufferManip BufferManipProofs
  Sorted SortedSpec SortedProofs SortedProofs2 SortedProofs3 SortedArraySpec AoA AoASpec AoALayout AoAProofs AoAProofs2 AoAProofs4
  AoS AoSSpec SetsProofs SetsProofs2 AoSProofs.
From Verif Require ArrayManip AoAProofs3.
Import ListNotations.
Set Implicit Arguments.
Unset Strict Implicit.

Section Assim.
Variable V W : Type.
Variable fw : V -> W.
Variable chk tv tw : bool.
Variable lt eqb : V -> V -> bool.
Hypothesis T : total_order lt eqb.
Notation kind := BMalloc.
Notation aoa := (aoa V W).
Notation idv := (fun v : V => v).
Notation rowset := (@rowset V V idv lt).
Notation rep := (@rep V V W idv fw tv tw false lt).
Notation aok := (@aok V V W idv fw tv tw false).
Notation pok := (@pok V V W idv fw tv tw false).
Notation LVs := (map (@LV V)).
Notation row := (list V * nat)%type.
Notation rows := (list row).
Implicit Types a : aoa.
Implicit Types A B L : rows.
Variable dflt : V.
Variable sort : buf V -> nat -> nat -> outcome (buf V).
Hypothesis HS : sorts lt sort.

Lemma sort_mem b p l s : mem tv b (p ++ LVs l ++ s) ->
  oks (sort b (length p) (length l)) (fun b' => exists l', mem tv b' (p ++ LVs l' ++ s) /\ Permutation l l' /\ sorted lt l').
Proof.
  intros M. apply Forall2_app_inv_r in M. destruct M as (bp & b2 & M1 & M2 & ->).
  apply Forall2_app_inv_r in M2. destruct M2 as (bl & bs & M2 & M3 & ->).
  assert (El : bl = map Obj l).
  { clear -M2. revert bl M2; induction l; intros bl M2; inversion M2; subst; auto. simpl in *. f_equal; auto. }
  subst bl. assert (Ep : length bp = length p) by exact (f2_len M1).
  destruct (HS bp bs l) as (l' & E & Pe & So). rewrite <- Ep, E. apply oks_ok. exists l'. split; auto.
  apply Forall2_app; auto. apply Forall2_app; auto. clear. induction l'; simpl; constructor; auto. reflexivity.
Qed.

(** One row. *)
Definition becomes (f : aoa -> nat -> outcome aoa) (Q : list V -> Prop) : Prop :=
  forall a A r k B, aok a (A ++ (r, k) :: B) -> Q r ->
    oks (f a (length A)) (fun a' => exists r' k', aok a' (A ++ (r', k') :: B) /\ rowset (r', k') (fun x => In x r)).

Lemma sort_row : becomes (sort_set chk sort) (@NoDup V).
Proof.
  intros a A r k B H Nd. pose proof H as [I [Ev _]]. unfold sort_set. rewrite (row_values idv chk I), (row_size chk I). cbn [bind].
  destruct (lay_row Ev) as [q M]. rewrite map_id in M.
  eapply oks_bind; [apply sort_mem; exact M|]. intros b (l' & M' & Pe & So). apply oks_ok. exists l', k. split.
  - pose proof (Permutation_length Pe) as Lp. split.
    + destruct I as (N & O & Z). split; [|split]; simpl; auto.
      * rewrite N. len.
      * eapply holds_eq; [exact O|]. rewrite !offsets_app. simpl. unfold wid. simpl. rewrite Lp. reflexivity.
      * eapply holds_eq; [exact Z|]. rewrite !sizes_app. simpl. rewrite Lp. reflexivity.
    + split; [|discriminate]. simpl. apply row_lay with (q := q). rewrite map_id. exact M'.
  - split; simpl.
    + apply sorted_strong in So. assert (Nd' : NoDup l') by (eapply Permutation_NoDup; eauto).
      clear -So Nd' T. induction So as [|x l So IH F]; constructor; [apply IH; inversion Nd'; auto|].
      apply Forall_forall. intros y Hy. rewrite Forall_forall in F. specialize (F y Hy). cbn in F.
      destruct (lt x y) eqn:E; auto. exfalso. rewrite (to_total T E F) in Nd'. inversion Nd'; subst. auto.
    + intros x. split; apply Permutation_in; auto. apply Permutation_sym; auto.
Qed.

Lemma unique_row f (Q : list V -> Prop) : 
  (forall b p l s, mem tv b (p ++ LVs l ++ s) -> Q l ->
     oks (f b (length p) (length l)) (fun r => exists u g, mem tv (fst r) (p ++ LVs u ++ g ++ s) /\ snd r = length u /\
        length u + length g = length l /\ Forall live g /\ StronglySorted (fun x y => lt x y = true) u /\ forall x, In x u <-> In x l)) ->
  becomes (unique_set chk tv dflt f) Q.
Proof.
  intros Hf a A r k B H Hq. pose proof H as [I [Ev _]]. unfold unique_set. rewrite (row_values idv chk I), (row_size chk I). cbn [bind].
  destruct (lay_row Ev) as [q M]. rewrite map_id in M.
  eapply oks_bind; [apply Hf; [exact M|exact Hq]|]. intros [b n] (u & g & M' & En & Len & Lg & Iu & Eu). cbn [fst snd] in *. subst n.
  unfold ArrayManip.resize. rewrite bind_assoc. eapply oks_bind.
  - eapply destroy_ok with (p := flat idv A ++ LVs u) (m := g) (s := repeat LN k ++ flat idv B ++ repeat LN q); auto.
    + eapply mem_cast; [exact M'|]. rewrite <- !app_assoc. reflexivity.
    + len.
    + lia.
  - intros b1 M1. replace (length u - length r) with 0 by lia. cbn [for_up bind].
    eapply oks_mono.
    + eapply (@AoAProofs3.row_put V W tv tw fw a A r k B u (length r - length u + k) b1 q); [exact I| |lia|reflexivity].
      eapply mem_cast; [exact M1|]. rewrite repeat_app_add, <- !app_assoc. reflexivity.
    + intros a' H'. exists u, (length r - length u + k). split; [exact H'|]. split; auto.
Qed.
Lemma dedup_row : becomes (unique_set chk tv dflt (removeDuplicates tv lt)) (fun r => sorted lt r).
Proof.
  apply unique_row. intros b p l s M So. apply sorted_strong in So.
  eapply oks_mono; [eapply (@removeDuplicates_ok V tv lt (to_swo T)); eauto|].
  intros r (u & g & M' & E & Len & Lg & Iu & Inc & Cov). exists u, g. split; [exact M'|]. split; auto. split; auto. split; auto. split; auto.
  intros x. split; [apply Inc|]. intros Hx. destruct (Cov x Hx) as (y & Hy & L1 & L2). rewrite (to_total T L1 L2). auto.
Qed.
Lemma sortdedup_row : becomes (unique_set chk tv dflt (makeSortedUnique tv lt sort)) (fun _ => True).
Proof.
  apply unique_row. intros b p l s M _. unfold makeSortedUnique.
  eapply oks_bind; [apply sort_mem; exact M|]. intros b1 (l' & M1 & Pe & So). apply sorted_strong in So.
  rewrite (Permutation_length Pe).
  eapply oks_mono; [eapply (@removeDuplicates_ok V tv lt (to_swo T)); eauto|].
  intros r (u & g & M' & E & Len & Lg & Iu & Inc & Cov). exists u, g. split; [exact M'|]. split; auto. split; auto. split; auto. split; auto.
  intros x. split.
  - intros Hx. apply Inc in Hx. eapply Permutation_in; [apply Permutation_sym; exact Pe|auto].
  - intros Hx. eapply Permutation_in in Hx; [|exact Pe]. destruct (Cov x Hx) as (y & Hy & L1 & L2). rewrite (to_total T L1 L2). auto.
Qed.

Notation member r := (fun x => In x r).
Lemma each_row f Q : becomes f Q -> forall a L, aok a L -> Forall Q (map fst L) ->
  oks (each_set f a) (fun a' => rep a' (map (fun r => member r) (map fst L))).
Proof.
  intros Hf a L H HQ. unfold each_set. pose proof H as [(N & _) _]. rewrite N.
  eapply oks_mono.
  - apply oks_for_up with (I := fun k a => exists L1 L2, length L1 = k /\ aok a (L1 ++ L2) /\ Forall Q (map fst L2) /\
      exists M1, length M1 = k /\ Forall2 rowset L1 M1 /\ M1 ++ map (fun r => member r) (map fst L2) = map (fun r => member r) (map fst L) /\
      length (L1 ++ L2) = length L).
    + exists [], L. split; auto. split; auto. split; auto. exists []. repeat split; auto. 
    + intros i a1 Hi (L1 & L2 & E1 & H1 & Q2 & M1 & E2 & F1 & EM & EL). rewrite app_length in EL. destruct L2 as [|[r k] L2]; [simpl in EL; lia|].
      simpl in Q2. pose proof (Forall_inv Q2) as Qr. apply Forall_inv_tail in Q2.
      rewrite <- E1 at 1. eapply oks_mono; [eapply Hf; [exact H1|exact Qr]|].
      intros a2 (r' & k' & H2 & R2). exists (L1 ++ [(r', k')]), L2. split; [len|]. split; [rewrite <- app_assoc; exact H2|]. split; auto.
      exists (M1 ++ [member r]). split; [len|]. split; [apply Forall2_app; auto|]. split.
      * rewrite <- EM, <- app_assoc. reflexivity.
      * revert EL. len.
  - intros a' (L1 & L2 & E1 & H1 & _ & M1 & E2 & F1 & EM & EL). rewrite app_length in EL.
    destruct L2; [|simpl in EL; lia]. simpl in EM. rewrite app_nil_r in *. subst M1. eexists. split; eauto.
Qed.

Lemma assimilate_ok this src L d : (exists L0, pok this L0) -> aok src L -> Forall (truthful lt d) (map fst L) ->
  oks (aos_assimilate chk tv tw false kind lt dflt sort this src d) (fun a' => rep a' (map (fun r => member r) (map fst L))).
Proof.
  intros [L0 H0] H F. unfold aos_assimilate. destruct (free_ok chk H0) as (t & -> & _). cbn [bind].
  destruct d; cbn [truthful] in F.
  - apply oks_ok. exists L. split; auto. clear -F. induction L as [|[r k] L IH]; simpl in *; constructor; auto.
    + split; simpl; [apply (increasing_strong lt); apply (Forall_inv F)|tauto].
    + apply IH. apply Forall_inv_tail in F. exact F.
  - eapply each_row; [apply sort_row|exact H|exact F].
  - eapply each_row; [apply dedup_row|exact H|exact F].
  - eapply each_row; [apply sortdedup_row|exact H|exact F].
Qed.
End Assim.

(** The view has no room for a new value. *)
Section NoRoom.
Variable V W : Type.
Variable fw : V -> W.
Variable tv tw : bool.
Variable lt eqb : V -> V -> bool.
Hypothesis T : total_order lt eqb.
Notation idv := (fun v : V => v).
Notation rep := (@rep V V W idv fw tv tw false lt).

Lemma view_full (a : aoa V W) M i S v c m : rep a M -> nth_error M i = Some S -> capacityOfArray true a i = Ok c ->
  cardinal (sum_set S [v]) m -> c < m -> v_insertIntoSet true tv lt eqb a i v = Abort.
Proof.
  intros (L & H & F) N Ec Cm Lt. destruct (f2_at F N) as (A & es & k & B & -> & <- & R & Pt). pose proof R as [I _]. pose proof H as [Ia [Ev _]].
  rewrite (row_capacity true Ia) in Ec. injection Ec as <-.
  assert (Em : length (pinsert lt eqb idv v es) = m).
  { apply (rowset_len (fv := idv) T (x := (pinsert lt eqb idv v es, 0)) (S := sum_set S [v])); auto. eapply rowset_sum1; eauto. }
  simpl in I. rewrite (pinsert_len T v I) in Em.
  unfold v_insertIntoSet, insertIntoSetImpl. rewrite (row_check true Ia). cbn [bind]. rewrite (row_size true Ia). cbn [bind].
  rewrite (row_values idv true Ia). cbn [bind]. destruct (lay_row Ev) as [q Mm].
  destruct (@insert_ok V V (aoa V W * nat) true tv lt eqb idv T (view_cb V W true (length A)) (fun _ _ _ _ => False) (vals a) (a, 0)
              (flat idv A) _ es v (length (flat idv A)) (length es) Mm I eq_refl eq_refl ltac:(intros; contradiction)) as (kk & E & _).
  rewrite E. cbn [cb_inc view_cb]. replace (set_vals (vals a) a) with a by (destruct a; reflexivity).
  rewrite (row_size true Ia), (row_capacity true Ia). cbn [bind].
  destruct (present eqb idv es v); [lia|]. unfold error_if. destruct (Nat.ltb_spec (length es + k) (length es + 1)); [reflexivity|lia].
Qed.
End NoRoom.
