(** Proofs that Array is the N-dimensional array of GridSpec. *)
From Coq Require Import List Arith ZArith Lia Bool Permutation.
From Verif Require Import Base BaseProofs Mem MemProofs BufferManipProofs Indexing IndexingSpec IndexingProofs Array ArraySpec GridSpec.
From Verif Require IndexingProofs2 ArrayProofs ArrayProofs2 ArrayProofs3.
Import ListNotations.
Set Implicit Arguments.
Unset Strict Implicit.

(** ** The order of memory *)
Lemma put_length t d i : d < length t -> length (put t d i) = length t.
Proof. intros H. unfold put. rewrite !app_length, firstn_length, skipn_length. simpl. lia. Qed.
Lemma put_same t d i : d < length t -> nth d (put t d i) 0 = i.
Proof. intros H. unfold put. rewrite app_nth2 by (rewrite firstn_length; lia). rewrite firstn_length, Nat.min_l, Nat.sub_diag by lia. reflexivity. Qed.
Lemma put_other t d i k : d < length t -> k <> d -> nth k (put t d i) 0 = nth k t 0.
Proof.
  intros H N. unfold put. destruct (Nat.lt_ge_cases k d).
  - rewrite app_nth1 by (rewrite firstn_length; lia). rewrite <- (firstn_skipn d t) at 2. rewrite app_nth1 by (rewrite firstn_length; lia). reflexivity.
  - rewrite app_nth2 by (rewrite firstn_length; lia). rewrite firstn_length, Nat.min_l by lia.
    rewrite <- (firstn_skipn (S d) t) at 2. rewrite (app_nth2 (firstn (S d) t)) by (rewrite firstn_length; lia). rewrite firstn_length, Nat.min_l by lia.
    replace (k - d) with (S (k - S d)) by lia. reflexivity.
Qed.
Fixpoint puts (t q is : list nat) : list nat :=
  match q, is with d :: q', i :: is' => puts (put t d i) q' is' | _, _ => t end.
Lemma puts_length q : forall t is, Forall (fun d => d < length t) q -> length (puts t q is) = length t.
Proof.
  induction q as [|d q IH]; intros t is F; [reflexivity|]. destruct is as [|i is]; [reflexivity|]. cbn [puts].
  rewrite IH; rewrite put_length; auto; inversion F; auto.
Qed.
Lemma puts_other q : forall t is k, Forall (fun d => d < length t) q -> ~ In k q -> nth k (puts t q is) 0 = nth k t 0.
Proof.
  induction q as [|d q IH]; intros t is k F N; [reflexivity|]. destruct is as [|i is]; [reflexivity|]. cbn [puts]. inversion F; subst.
  rewrite IH by (rewrite ?put_length; simpl in N; auto). apply put_other; auto. intros ->. apply N. left. reflexivity.
Qed.
Lemma puts_gather q : forall t is, Forall (fun d => d < length t) q -> NoDup q -> length is = length q -> gather q (puts t q is) = is.
Proof.
  induction q as [|d q IH]; intros t is F N L; destruct is as [|i is]; try discriminate; [reflexivity|]. inversion F; subst. inversion N; subst.
  cbn [puts gather map]. f_equal.
  - rewrite puts_other by (rewrite ?put_length; auto). apply put_same. auto.
  - apply IH; rewrite ?put_length; auto.
Qed.
Lemma tuples_length dims q : forall t, length (tuples dims q t) = prod (gather q dims).
Proof.
  induction q as [|d q IH]; intros t; [reflexivity|]. cbn [tuples gather map]. change (prod (nth d dims 0 :: gather q dims)) with (nth d dims 0 * prod (gather q dims)).
  generalize 0 at 1 as s. generalize (nth d dims 0) as n. induction n as [|n IHn]; intros s; [reflexivity|]. cbn [seq flat_map]. rewrite app_length, IH, IHn. unfold prod. cbn [fold_right]. unfold gather. lia.
Qed.
Lemma flat_nth {A} (f : nat -> list A) m n : forall s i j, (forall i, length (f i) = m) -> i < n -> j < m ->
  nth_error (flat_map f (seq s n)) (i * m + j) = nth_error (f (s + i)) j.
Proof.
  induction n as [|n IH]; intros s i j L Hi Hj; [lia|]. cbn [seq flat_map]. destruct i as [|i].
  - rewrite nth_error_app1 by (rewrite L; simpl; lia). rewrite Nat.add_0_r. reflexivity.
  - rewrite nth_error_app2 by (rewrite L; nia). rewrite L. replace (S i * m + j - m) with (i * m + j) by lia. rewrite IH by (auto; lia). f_equal. f_equal. lia.
Qed.
Lemma tuples_nth dims q : forall t is, Forall2 lt is (gather q dims) -> nth_error (tuples dims q t) (lin (gather q dims) is) = Some (puts t q is).
Proof.
  induction q as [|d q IH]; intros t is F; inversion F as [|i x is' y Hi F']; subst; [reflexivity|]. cbn [tuples puts lin gather map].
  change (map (fun p => nth p dims 0) q) with (gather q dims). rewrite (@flat_nth _ _ (prod (gather q dims))).
  - rewrite IH; [reflexivity|exact F'].
  - intros k. apply tuples_length.
  - exact Hi.
  - apply lin_bound. exact F'.
Qed.
Section Perm.
Variable perm : list nat.
Hypothesis P : is_permutation perm (length perm).
Variable dims : list nat.
Hypothesis Ld : length dims = length perm.
Notation slot t := (lin (gather perm dims) (gather perm t)).
Lemma Pdims : is_permutation perm (length dims). Proof. rewrite Ld. exact P. Qed.
Lemma places_length : length (places perm dims) = prod dims.
Proof. unfold places. rewrite tuples_length. apply gather_prod. exact Pdims. Qed.
Lemma places_bound : Forall (fun d => d < length (repeat 0 (length dims))) perm.
Proof. apply Forall_forall. intros d H. rewrite repeat_length. destruct (perm_facts Pdims) as (_ & _ & B). apply B. exact H. Qed.
Lemma places_nth t : Forall2 lt t dims -> nth_error (places perm dims) (slot t) = Some t.
Proof.
  intros F. unfold places. rewrite tuples_nth by (apply gather_lt; [exact Pdims|exact F]). f_equal.
  destruct (perm_facts Pdims) as (E & N & _). apply gather_inj with (perm := perm) (n := length dims).
  - exact Pdims.
  - rewrite puts_length by exact places_bound. apply repeat_length.
  - apply (Forall2_len F).
  - apply puts_gather; [exact places_bound|exact N|]. unfold gather. apply map_length.
Qed.
Lemma places_at k t : nth_error (places perm dims) k = Some t -> Forall2 lt t dims /\ slot t = k.
Proof.
  intros H. assert (Hk : k < prod (gather perm dims)).
  { rewrite (gather_prod Pdims), <- places_length. apply nth_error_Some. rewrite H. discriminate. }
  destruct (lin_surj Hk) as (is & F & E). pose proof (scatter_valid Pdims F) as Fs. set (u := scatter (length dims) perm is) in *.
  assert (G : gather perm u = is).
  { unfold u, gather. apply (map_nth_perm_scatter Pdims). rewrite (Forall2_len F). unfold gather. rewrite map_length. destruct (perm_facts Pdims). lia. }
  pose proof (places_nth Fs) as Q. rewrite G, E, H in Q. injection Q as ->. split; [exact Fs|]. rewrite G. exact E.
Qed.
Lemma places_in t : In t (places perm dims) <-> Forall2 lt t dims.
Proof.
  split.
  - intros H. apply In_nth_error in H. destruct H as [k H]. apply (places_at H).
  - intros H. eapply nth_error_In. apply places_nth. exact H.
Qed.
Lemma places_nodup : NoDup (places perm dims).
Proof.
  apply NoDup_nth_error. intros i j Hi E. destruct (nth_error (places perm dims) i) as [t|] eqn:Ei; [|apply nth_error_None in Ei; lia].
  symmetry in E. apply places_at in Ei, E. lia.
Qed.
End Perm.

Section Values.
Variable V : Type.
Lemma look_nth (l : list V) : forall ts t k, NoDup ts -> nth_error ts k = Some t -> look (combine ts l) t = nth_error l k.
Proof.
  induction l as [|v l IH]; intros ts t k N H.
  - destruct ts, k; reflexivity.
  - destruct ts as [|u ts]; [destruct k; discriminate|]. cbn [combine look]. inversion N as [|? ? Nu Nt]; subst.
    destruct k as [|k]; [injection H as ->; destruct (list_eq_dec Nat.eq_dec t t); [reflexivity|congruence]|].
    destruct (list_eq_dec Nat.eq_dec u t) as [->|_]; [destruct Nu; eapply nth_error_In; exact H|]. cbn [nth_error] in *. apply IH; auto.
Qed.
Lemma look_none (l : list V) : forall ts t, ~ In t ts -> look (combine ts l) t = None.
Proof.
  induction l as [|v l IH]; intros ts t N; destruct ts as [|u ts]; try reflexivity. cbn [combine look].
  destruct (list_eq_dec Nat.eq_dec u t) as [->|_]; [destruct N; left; reflexivity|]. apply IH. intros H. apply N. right. exact H.
Qed.
Variable chk triv : bool.
Variable perm : list nat.
Variable dflt : V.
Hypothesis P : is_permutation perm (length perm).
Hypothesis NZ : 0 < length perm.
Notation kind := BufferManip.BMalloc.
Notation arr_ok := (ArrayProofs.arr_ok (V:=V) triv perm).
Lemma seen_slot dims (l : list V) t : length dims = length perm -> Forall2 lt t dims -> seen perm dims l t = nth_error l (lin (gather perm dims) (gather perm t)).
Proof. intros L F. unfold seen. apply look_nth; [apply places_nodup; auto|apply places_nth; auto]. Qed.
Lemma seen_none dims (l : list V) t : length dims = length perm -> ~ Forall2 lt t dims -> seen perm dims l t = None.
Proof. intros L F. unfold seen. apply look_none. rewrite places_in by auto. exact F. Qed.

Definition gok (a : array V) (g : grid V) : Prop := arr_ok a (g_vals g) /\ a_dims a = g_dims g /\ a_rix a = g_rix g.
Lemma gok_len a g : gok a g -> length (g_dims g) = length perm. Proof. intros ((L & _) & <- & _). exact L. Qed.
Lemma gok_vals a g : gok a g -> length (g_vals g) = prod (g_dims g). Proof. intros ((_ & _ & _ & L & _) & <- & _). exact L. Qed.
Lemma slot_eq dims t : ArrayProofs.slotn perm dims (map Z.of_nat t) = lin (gather perm dims) (gather perm t).
Proof. unfold ArrayProofs.slotn. f_equal. f_equal. rewrite map_map. rewrite <- (map_id t) at 2. apply map_ext. intros. apply Nat2Z.id. Qed.
Lemma gok_at a g t : gok a g -> Forall2 lt t (g_dims g) -> exists v, value perm g t = Some v /\ at_ chk perm a (map Z.of_nat t) = Ok v.
Proof.
  intros G F. pose proof (gok_len G) as Ln. destruct G as (A & D & R).
  destruct (@ArrayProofs.at_ok V chk triv perm P NZ a (g_vals g) (map Z.of_nat t) A) as (v & N & E).
  { rewrite D. apply valid_of_nat. exact F. }
  exists v. split; [|exact E]. unfold value. rewrite seen_slot by auto. rewrite D, slot_eq in N. exact N.
Qed.
Lemma gok_shows a g : gok a g -> gshows perm chk a g.
Proof.
  intros G. pose proof G as (A & D & R). split; [exact D|]. split; [exact R|]. split; [exact (gok_vals G)|]. intros t F. apply gok_at; assumption.
Qed.
Lemma new_gok : gok (new_array V kind perm) (new_grid V perm).
Proof. split; [apply ArrayProofs2.new_ok; auto|split; reflexivity]. Qed.

(** The values of an array are determined by those at its indices. *)
Lemma vals_of a (l : list V) (f : list nat -> V) : arr_ok a l ->
  (forall t, Forall2 lt t (a_dims a) -> at_ chk perm a (map Z.of_nat t) = Ok (f t)) -> l = map f (places perm (a_dims a)).
Proof.
  intros A H. pose proof A as (L & _ & _ & Lv & _).
  assert (Q : forall k, nth_error l k = nth_error (map f (places perm (a_dims a))) k).
  { intros k. rewrite nth_error_map. destruct (nth_error (places perm (a_dims a)) k) as [t|] eqn:N.
    - apply places_at in N; auto. destruct N as [F <-]. destruct (@ArrayProofs.at_ok V chk triv perm P NZ a l (map Z.of_nat t) A) as (v & N & E).
      { apply valid_of_nat. exact F. }
      rewrite slot_eq in N. rewrite N. rewrite (H t F) in E. injection E as <-. reflexivity.
    - apply nth_error_None in N. rewrite places_length in N by auto. cbn. apply nth_error_None. rewrite Lv. exact N. }
  clear -Q. revert Q. generalize (map f (places perm (a_dims a))) as m. induction l as [|x l IH]; intros m Q.
  - destruct m; [reflexivity|]. specialize (Q 0). discriminate.
  - destruct m as [|y m]; [specialize (Q 0); discriminate|]. f_equal; [specialize (Q 0); cbn in Q; congruence|]. apply IH. intros k. exact (Q (S k)).
Qed.
Lemma reshape_gok a g n v : gok a g -> (0 <= n)%Z ->
  oks (resizeDefaultDimension chk triv kind perm a n v) (fun a' => gok a' (reshaped perm g (set_ext (g_dims g) (g_rix g, n)) v) /\
    length (a_buf a') = Nat.max (length (a_buf a)) (extent_product (set_ext (g_dims g) (g_rix g, n)))).
Proof.
  intros G Hn. pose proof G as (A & D & R). pose proof A as (L & S & Rx & Lv & H).
  destruct (ArrayProofs.perm_split P Rx) as (po & pi & Ep & N1 & N2).
  destruct (@ArrayProofs.rdd_ok V chk triv kind perm P NZ a (g_vals g) (Z.to_nat n) v po pi A Ep N1 N2 (or_introl eq_refl)) as (a' & E' & D' & R' & A' & Cp).
  rewrite Z2Nat.id in E' by exact Hn.
  destruct (@ArrayProofs.rdd_values V chk triv kind perm P NZ a (g_vals g) (Z.to_nat n) v a' A (or_introl eq_refl)) as (_ & _ & _ & Q1 & Q2).
  { rewrite Z2Nat.id by exact Hn. exact E'. }
  assert (Ds : a_dims a' = set_ext (g_dims g) (g_rix g, n)).
  { rewrite D', D, R. unfold set_ext. cbn [fst snd]. apply ArrayProofs2.upd_firstn. rewrite <- D, <- R, L. exact Rx. }
  exists a'. split; [exact E'|]. split.
  - split; [|split; [exact Ds|rewrite R'; exact R]]. cbn [reshaped g_vals]. rewrite <- Ds.
    erewrite <- (vals_of (f := fun t => match value perm g t with Some x => x | None => v end) A'); [exact A'|].
    intros t F. destruct (inside (a_dims a) (map Z.of_nat t)) eqn:I.
    + apply ArrayProofs2.inside_valid in I. pose proof I as I'. apply valid_to_nat in I'. destruct I' as [I' _]. rewrite map_map in I'.
      assert (Ft : Forall2 lt t (g_dims g)). { rewrite <- D. erewrite map_ext in I'; [rewrite map_id in I'; exact I'|]. intros. apply Nat2Z.id. }
      destruct (gok_at G Ft) as (x & Ex & Ax). rewrite Ex. destruct (Q1 (map Z.of_nat t)) as (y & Y1 & Y2); [apply valid_of_nat; exact F|exact I|]. congruence.
    + assert (NI : ~ valid_index (a_dims a) (map Z.of_nat t)). { intros J. apply ArrayProofs2.inside_valid in J. congruence. }
      assert (NF : ~ Forall2 lt t (g_dims g)). { intros J. apply NI. rewrite D. apply valid_of_nat. exact J. }
      unfold value. rewrite seen_none by (auto; rewrite <- D; exact L). apply Q2; [apply valid_of_nat; exact F|exact NI].
  - rewrite Cp. f_equal. rewrite <- D', Ds. reflexivity.
Qed.
Lemma fit_gok a g dims : gok a g -> length dims = length perm ->
  oks (b <- BufferManip.resize chk triv kind (a_buf a) (size a) (multiplyAll dims) dflt ;; Ok (set_shape perm a dims b))
      (fun a' => gok a' (fitted dflt g dims) /\ length (a_buf a') = Nat.max (length (a_buf a)) (extent_product dims)).
Proof.
  intros G Ld. pose proof G as (A & D & R). rewrite (ArrayProofs.size_ok A). destruct A as (L & S & Rx & LV & H). rewrite multiplyAll_prod.
  eapply oks_bind; [apply resize_ok; eauto; left; auto|]. intros b [Hb Lb]. apply oks_ok. split; [|exact Lb].
  split; [|split; [reflexivity|exact R]]. repeat split; auto. cbn. apply list_resize_length.
Qed.
Lemma written_vals (g : grid V) t v : length (g_dims g) = length perm -> Forall2 lt t (g_dims g) -> length (g_vals g) = prod (g_dims g) ->
  g_vals (written perm g t v) = upd (g_vals g) (lin (gather perm (g_dims g)) (gather perm t)) v.
Proof.
  intros L F Lv. cbn [written g_vals]. rewrite <- (places_length P L) in Lv.
  pose proof (places_nth P L F) as Nt. pose proof (places_nodup P L) as ND. revert Nt ND Lv. generalize (lin (gather perm (g_dims g)) (gather perm t)) as k.
  generalize (g_vals g) as l. generalize (places perm (g_dims g)) as ts. clear.
  induction ts as [|u ts IH]; intros l k Nt ND Lv; destruct l as [|x l]; try discriminate; [destruct k; discriminate|].
  inversion ND as [|? ? Nu Nd]; subst. cbn [combine map fst snd]. destruct k as [|k].
  - injection Nt as ->. destruct (list_eq_dec Nat.eq_dec t t); [|congruence]. cbn [upd]. f_equal.
    transitivity (map snd (combine ts l)).
    + apply map_ext_in. intros [w z] Hin. cbn [fst snd]. destruct (list_eq_dec Nat.eq_dec w t) as [->|]; [|reflexivity]. destruct Nu. eapply in_combine_l. exact Hin.
    + clear -Lv. injection Lv as Lv. revert l Lv. induction ts; destruct l; intros; try discriminate; [reflexivity|]. cbn. f_equal. apply IHts. cbn in Lv. congruence.
  - destruct (list_eq_dec Nat.eq_dec u t) as [->|]; [destruct Nu; eapply nth_error_In; exact Nt|]. cbn [upd]. f_equal. apply IH; auto.
Qed.
Lemma step_gok c a g g' : gok a g -> static_ok (length perm) c -> grid_step perm dflt c g = Some g' ->
  oks (nstep chk triv kind perm dflt c a) (fun a' => gok a' g' /\ length (a_buf a') = room_after c g' (length (a_buf a))).
Proof.
  intros G SO X. pose proof G as (A & D & R). pose proof A as (L & S & Rx & LV & H). pose proof (gok_len G) as Ln.
  destruct c; cbn [nstep grid_step] in *.
  - destruct ((length dims =? length (g_dims g)) && forallb _ dims)%bool eqn:B; [|discriminate].
    injection X as <-. apply andb_true_iff in B. destruct B as [B1 B2]. apply Nat.eqb_eq in B1.
    unfold resize_dims. rewrite error_if_ok by (rewrite B1, Ln, Nat.eqb_refl; auto). cbn [bind].
    rewrite ArrayProofs2.set_dims_ok.
    + replace (fold_left set_ext (combine (seq 0 (length perm)) dims) (a_dims a)) with (map Z.to_nat dims).
      * cbn [bind]. apply fit_gok; [exact G|]. rewrite map_length. congruence.
      * rewrite <- Ln, <- B1. symmetry. apply (@ArrayProofs2.set_all dims [] (a_dims a)). congruence.
    + apply Forall_forall. intros [i d] Hin. apply in_combine_l in Hin. apply in_seq in Hin. cbn. lia.
    + apply forallb_forall. intros [i d] Hin. apply in_combine_r in Hin.
      rewrite forallb_forall in B2. apply (B2 d Hin).
  - destruct (forallb _ pairs) eqn:B; [|discriminate]. injection X as <-.
    unfold resizeDimension. cbn in SO. rewrite <- L in SO. rewrite ArrayProofs2.set_dims_ok by auto. cbn [bind]. rewrite D.
    apply fit_gok; [exact G|]. rewrite ArrayProofs2.fold_set_ext_length; auto. rewrite <- D. auto.
  - destruct (Z.leb_spec 0 n); [|discriminate]. injection X as <-. apply reshape_gok; auto.
  - destruct (Z.leb_spec 0 n); [|discriminate]. injection X as <-. apply reshape_gok; auto.
  - injection X as <-. unfold clear. rewrite (ArrayProofs.size_ok A).
    eapply oks_bind; [apply resize_ok; eauto; left; auto|]. intros b [Hb Lb]. apply oks_ok. split; [|cbn; rewrite Lb; cbn; lia].
    assert (U : upd (a_dims a) (a_rix a) 0 = set_ext (g_dims g) (g_rix g, 0%Z)) by (rewrite D, R; unfold set_ext; cbn; apply ArrayProofs2.upd_firstn; rewrite <- R; lia).
    split; [|split; [exact U|exact R]].
    unfold ArrayProofs.arr_ok, set_shape. cbn. rewrite upd_length. repeat split; auto.
    symmetry. apply IndexingProofs2.prod_zero. rewrite ArrayProofs2.upd_firstn by lia. apply in_or_app. right. simpl. auto.
  - rewrite Ln in X. destruct ((0 <=? i)%Z && (i <? Z.of_nat (length perm))%Z)%bool eqn:B; [|discriminate].
    injection X as <-. apply andb_true_iff in B. destruct B as [B1 B2].
    unfold setSingleParameterResizeIndex. rewrite error_if_ok by lia. cbn [bind].
    rewrite error_if_ok by lia. cbn [bind]. apply oks_ok. split; [|reflexivity].
    split; [|split; [exact D|reflexivity]]. unfold ArrayProofs.arr_ok. cbn. repeat split; auto. lia.
  - injection X as <-. unfold reserve. rewrite (ArrayProofs.size_ok A).
    eapply oks_bind; [apply reserve_ok; eauto; left; auto|]. intros b [Hb Lb]. apply oks_ok.
    split; [|exact Lb]. split; [|split; [exact D|exact R]]. unfold ArrayProofs.arr_ok. cbn. repeat split; auto.
  - destruct (inside (g_dims g) idx) eqn:I; [|discriminate]. injection X as <-. apply ArrayProofs2.inside_valid in I.
    destruct (@ArrayProofs2.set_valid V chk triv perm P NZ a (g_vals g) idx v A) as (a' & E' & A' & D' & R'); [rewrite D; exact I|].
    exists a'. split; [exact E'|]. split.
    + split; [|split; [rewrite D'; exact D|rewrite R'; exact R]]. rewrite written_vals; [|exact Ln|apply (valid_to_nat I)|exact (gok_vals G)].
      rewrite D in A'. exact A'.
    + cbn [room_after]. unfold set_ in E'. destruct (slice_call chk (toSlice perm a) idx) as [k| |]; try discriminate. cbn [bind] in E'.
      destruct (to_ix k) as [i| |]; try discriminate. cbn [bind] in E'. destruct (assign triv (a_buf a) i v) as [b| |] eqn:Eb; try discriminate.
      injection E' as <-. apply (ArrayProofs3.assign_length Eb).
Qed.
Lemma run_gok h : forall a g g', gok a g -> Forall (static_ok (length perm)) h -> grid_run perm dflt h g = Some g' ->
  oks (run (nstep chk triv kind perm dflt) h a) (fun a' => gok a' g').
Proof.
  induction h as [|c h IH]; intros a g g' G F X.
  - cbn in *. injection X as <-. apply oks_ok. exact G.
  - cbn [run grid_run] in *. inversion F; subst. destruct (grid_step perm dflt c g) as [g1|] eqn:E1; [|discriminate].
    eapply oks_bind; [eapply step_gok; eauto|]. intros a1 [G1 _]. eapply IH; eauto.
Qed.
Lemma step_abort c a g : chk = true -> gok a g -> static_ok (length perm) c -> grid_step perm dflt c g = None ->
  nstep chk triv kind perm dflt c a = Abort \/ exists idx v, c = NSet idx v /\ length idx <> length perm.
Proof.
  intros K G SO X. pose proof G as (A & D & R). apply (@ArrayProofs2.nstep_abort V chk triv kind perm dflt NZ c a (g_vals g)); auto.
  rewrite D, R. destruct c; cbn [grid_step extents] in *;
  repeat match goal with |- context [if ?b then _ else _] => destruct b end; congruence.
Qed.
End Values.
