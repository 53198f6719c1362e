(** The assertions of the sorted functions hold whenever the values and the arguments are sorted and unique. *)
From Coq Require Import List Arith ZArith Lia Bool Sorting.Sorted.
From Verif Require Import Base Mem BufferManip Debug DebugProofs Sorted SortedArray DebugSorted AoACapacity AoACapacityProofs
  SortedSpec SortedProofs SortedArraySpec.
From Verif Require ArrayManip BufferManipProofs SortedArrayProofs MemProofs BaseProofs.
Import ListNotations.
Set Implicit Arguments.

Section Frame.
Variable V : Type.
Variables chk t : bool.
Implicit Types b : buf V.

(** the slots in [P] are not touched *)
Definition frame (P : nat -> Prop) b b' : Prop := length b' = length b /\ forall i, P i -> nth_error b' i = nth_error b i.
Lemma frame_refl P b : frame P b b.
Proof. split; auto. Qed.
Lemma frame_trans P b b1 b2 : frame P b b1 -> frame P b1 b2 -> frame P b b2.
Proof. intros [L H] [L' H']. split; [ lia | ]. intros i Hi. rewrite H', H; auto. Qed.
Lemma upd_other A (l : list A) i j x : i <> j -> nth_error (upd l i x) j = nth_error l j.
Proof. revert i j. induction l; intros [|i] [|j] N; simpl; auto; try lia. Qed.
Lemma aset_frame P b i c : ~ P i -> post (aset b i c) (frame P b).
Proof.
  intros N. unfold aset. destruct (i <? length b); [ | apply post_fault ]. apply post_ok. split; [ apply upd_len | ].
  intros j J. apply upd_other. intros ->. contradiction.
Qed.
Lemma place_frame P b i c : ~ P i -> post (place t b i c) (frame P b).
Proof.
  intros N. unfold place. apply post_any. intros [ |v| ]; try (apply aset_frame; exact N). destruct t; [ apply aset_frame; exact N | apply post_fault ].
Qed.
Lemma store_frame P b i c : ~ P i -> post (store t b i c) (frame P b).
Proof.
  intros N. unfold store. apply post_any. intros [ |v| ]; try (apply aset_frame; exact N). destruct t; [ apply aset_frame; exact N | apply post_fault ].
Qed.
Lemma take_frame P b i : ~ P i -> post (take t b i) (fun r => frame P b (snd r)).
Proof.
  intros N. unfold take. apply post_any. intros c. destruct t; [ apply post_ok, frame_refl | ].
  destruct c; [ apply post_fault | | apply post_ok, frame_refl ].
  eapply post_bind; [ apply aset_frame; exact N | ]. intros b1 H. apply post_ok. exact H.
Qed.
Lemma mconstruct_frame P b d s : ~ P d -> ~ P s -> post (mconstruct t b d s) (frame P b).
Proof.
  intros D N. unfold mconstruct. eapply post_bind; [ apply take_frame; exact N | ]. intros [c b1] H. simpl in H.
  eapply post_mono; [ apply place_frame; exact D | ]. intros b2 H2. exact (frame_trans H H2).
Qed.
Lemma massign_frame P b d s : ~ P d -> ~ P s -> post (massign t b d s) (frame P b).
Proof.
  intros D N. unfold massign. eapply post_bind; [ apply take_frame; exact N | ]. intros [c b1] H. simpl in H.
  eapply post_mono; [ apply store_frame; exact D | ]. intros b2 H2. exact (frame_trans H H2).
Qed.
Lemma destroy1_frame P b i : ~ P i -> post (destroy1 t b i) (frame P b).
Proof.
  intros N. unfold destroy1. apply post_any. intros c. destruct t; [ apply post_ok, frame_refl | ].
  destruct c; [ apply post_fault | apply aset_frame; exact N | apply aset_frame; exact N ].
Qed.
Lemma up_frame P (f : nat -> buf V -> outcome (buf V)) n : forall i b,
  (forall j b, i <= j < i + n -> post (f j b) (frame P b)) -> post (for_up n f i b) (frame P b).
Proof.
  induction n; intros i b H; simpl; [ apply post_ok, frame_refl | ].
  eapply post_bind; [ apply H; lia | ]. intros b1 F. eapply post_mono; [ apply IHn; intros; apply H; lia | ].
  intros b2 F2. exact (frame_trans F F2).
Qed.
Lemma down_frame P (f : nat -> buf V -> outcome (buf V)) n : forall b,
  (forall j b, j < n -> post (f j b) (frame P b)) -> post (for_down n f b) (frame P b).
Proof.
  induction n; intros b H; simpl; [ apply post_ok, frame_refl | ].
  eapply post_bind; [ apply H; lia | ]. intros b1 F. eapply post_mono; [ apply IHn; intros; apply H; lia | ].
  intros b2 F2. exact (frame_trans F F2).
Qed.
Lemma shiftUp_frame b p size index n : post (ArrayManip.shiftUp chk t b p size index n) (frame (fun i => i < p + index) b).
Proof.
  unfold ArrayManip.shiftUp. apply post_any. intros _. destruct (n =? 0); [ apply post_ok, frame_refl | ].
  eapply post_bind; [ apply down_frame with (P := fun i => i < p + index); intros; apply mconstruct_frame; lia | ]. intros b1 F.
  eapply post_mono; [ apply up_frame with (P := fun i => i < p + index); intros; apply destroy1_frame; lia | ]. intros b2 F2. exact (frame_trans F F2).
Qed.
Lemma shiftDown_frame b p size index n : post (ArrayManip.shiftDown chk t b p size index n) (frame (fun i => p + size <= i) b).
Proof.
  unfold ArrayManip.shiftDown. apply post_any. intros _. destruct (n =? 0); [ apply post_ok, frame_refl | ].
  apply up_frame. intros j b1 J. unfold sub_ix. destruct (n <=? p + j); [ | apply post_fault ]. cbn [bind].
  apply massign_frame; lia.
Qed.
End Frame.

(** the values at [p] are those of [l] *)
Definition view {V} (b : buf V) (p : nat) (l : list V) : Prop := forall i v, nth_error l i = Some v -> rd b (p + i) = Ok v.

Section S.
Variable V : Type.
Variables dbg chk t : bool.
Variable kind : bkind.
Variable lt eqb : V -> V -> bool.
Hypothesis T : total_order lt eqb.
Implicit Types b : buf V.
Notation incr l := (StronglySorted (fun x y => lt x y = true) l).

Lemma view_pos b p l : view b p l -> l <> [] -> 0 < length b.
Proof.
  intros H N. destruct l as [|v l]; [ contradiction | ]. specialize (H 0 v eq_refl). unfold rd in H.
  destruct (aget b (p + 0)) eqn:E; [ exact (aget_pos _ _ E) | discriminate | discriminate ].
Qed.
Lemma view_frame P b b' p l : view b p l -> frame P b b' -> (forall i, i < length l -> P (p + i)) -> view b' p l.
Proof.
  intros H [_ F] K i v E. specialize (H i v E). unfold rd, aget in *.
  rewrite F; [ exact H | ]. apply K. apply nth_error_Some. rewrite E. discriminate.
Qed.
Lemma nth_error_skip A (l : list A) n i : nth_error (skipn n l) i = nth_error l (n + i).
Proof. revert l. induction n; intros [|x l]; simpl; auto. destruct i; auto. Qed.
Lemma nth_error_first A (l : list A) n i x : nth_error (firstn n l) i = Some x -> nth_error l i = Some x.
Proof. revert l i. induction n; intros [|y l] [|i]; simpl; auto; discriminate. Qed.
Lemma view_skipn b p k m l : k <= m -> view b (p + k) (skipn k l) -> view b (p + m) (skipn m l).
Proof.
  intros K H i v E. rewrite nth_error_skip in E. replace (p + m + i) with (p + k + (m - k + i)) by lia. apply H.
  rewrite nth_error_skip. rewrite <- E. f_equal. lia.
Qed.
Lemma view_firstn b p k m l : k <= m -> view b p (firstn m l) -> view b p (firstn k l).
Proof.
  intros K H i v E. apply H. replace (firstn k l) with (firstn k (firstn m l)) in E by (rewrite firstn_firstn; f_equal; lia).
  exact (nth_error_first _ _ _ E).
Qed.
Lemma reads_view b : forall l p, view b p l -> reads b p (length l) = Ok l.
Proof.
  induction l as [|v l IH]; intros p H; [ reflexivity | ]. cbn [length reads].
  rewrite <- (Nat.add_0_r p) at 1. rewrite (H 0 v eq_refl). cbn [bind]. rewrite IH; [ reflexivity | ].
  intros i w E. rewrite <- (H (S i) w E). f_equal. lia.
Qed.
Lemma range_ok test b p l : view b p l -> test l = true -> assert_range dbg test b p (length l) = Ok tt.
Proof.
  intros H E. unfold assert_range. destruct dbg; [ | reflexivity ]. rewrite (reads_view H). cbn [bind].
  unfold assert_, check_if. rewrite E. reflexivity.
Qed.
Lemma ptr_ok b p l : view b p l -> assert_ dbg (nonnull kind b p || (length l =? 0)) = Ok tt.
Proof.
  intros H. unfold assert_, check_if.
  replace (nonnull kind b p || (length l =? 0)) with true; [ destruct dbg; reflexivity | ].
  destruct l; [ rewrite orb_true_r; reflexivity | ]. rewrite nn; [ reflexivity | ]. apply (view_pos H). discriminate.
Qed.

Lemma sorted_incr l : incr l -> isSorted lt l = true.
Proof.
  intros I. apply (isSorted_iff (to_swo T)). apply increasing_strong in I. intros i j x y L X Y.
  pose proof (I i j x y L X Y) as A. destruct (lt y x) eqn:E; [ | reflexivity ].
  pose proof (swo_trans (to_swo T) A E) as B. rewrite (swo_irr (to_swo T)) in B. discriminate.
Qed.
Lemma unique_incr l : incr l -> isSortedUnique lt l = true.
Proof. intros I. apply (isSortedUnique_iff (to_swo T)). apply increasing_strong. exact I. Qed.
Lemma incr_skipn l n : incr l -> incr (skipn n l).
Proof. intros I. revert n. induction I; intros [|n]; simpl; try constructor; auto. Qed.
Lemma incr_firstn l n : incr l -> incr (firstn n l).
Proof.
  intros I. revert n. induction I as [|x l I IH F]; intros [|n]; simpl; try constructor; auto.
  rewrite Forall_forall in *. intros y Y. apply F. rewrite <- (firstn_skipn n l). apply in_or_app. left. exact Y.
Qed.

(** * find *)
Lemma find_loop_view b p v l : view b p l -> forall fuel lo up, lo <= up -> up <= length l ->
  find_loop lt fuel b p v lo up = find_loop lt fuel (map (@Obj V) l) 0 v lo up.
Proof.
  intros H. induction fuel; intros lo up A B; cbn [find_loop]; [ reflexivity | ]. destruct (Nat.eqb_spec lo up); [ reflexivity | ].
  assert (G : lo <= (lo + up) / 2 < up).
  { split; [ apply Nat.div_le_lower_bound; lia | apply Nat.div_lt_upper_bound; lia ]. }
  destruct (nth_error l ((lo + up) / 2)) as [x|] eqn:E; [ | apply nth_error_None in E; lia ].
  cbv zeta. rewrite (H _ _ E). unfold rd, aget. rewrite Nat.add_0_l, (map_nth_error (@Obj V) _ _ E). cbn [bind].
  destruct (lt x v); apply IHfuel; lia.
Qed.
Lemma find_view b p v l : view b p l -> incr l -> find lt b p (length l) v = Ok (number_less lt l v).
Proof.
  intros H I. unfold find. rewrite (find_loop_view v H) by lia.
  assert (S : sorted lt l) by (apply (isSorted_iff (to_swo T)), sorted_incr; exact I).
  apply sorted_strong in S. destruct (split_less (to_swo T) v S) as (a & c & E & Fa & Fc).
  rewrite E. rewrite (number_less_split Fa Fc).
  eapply (@find_ok V true lt (map (@Obj V) (a ++ c)) [] [] a c v 0 (length (a ++ c))); auto; [ | apply app_length ].
  simpl. rewrite app_nil_r. clear. induction (a ++ c); simpl; constructor; auto; constructor.
Qed.
Lemma d_find_eq b p v l : view b p l -> incr l -> d_find dbg kind lt b p (length l) v = find lt b p (length l) v.
Proof.
  intros H I. unfold d_find. rewrite (ptr_ok H). cbn [bind]. rewrite (range_ok _ H (sorted_incr I)). reflexivity.
Qed.
Lemma number_le l v : number_less lt l v <= length l.
Proof. unfold number_less. induction l; simpl; [ lia | ]. destruct (lt a v); simpl; lia. Qed.
Lemma number_pos l v x : nth_error l 0 = Some x -> lt x v = true -> 0 < number_less lt l v.
Proof. destruct l; [ discriminate | ]. intros E L. injection E as ->. unfold number_less. simpl. rewrite L. simpl. lia. Qed.

Lemma d_contains_eq b p v l : view b p l -> incr l ->
  d_contains dbg kind lt eqb b p (length l) v = contains lt eqb b p (length l) v.
Proof. intros H I. unfold d_contains, contains. rewrite (d_find_eq _ H I). reflexivity. Qed.

(** * The searches of remove *)
Lemma skip_len A (l : list A) n : length (skipn n l) = length l - n.
Proof. apply skipn_length. Qed.
Lemma d_seek_eq b p l : incr l -> forall vs pos, pos <= length l -> view b (p + pos) (skipn pos l) ->
  d_seek dbg kind lt eqb b p (length l) pos vs = seek lt eqb b p (length l) pos vs.
Proof.
  intros I. induction vs as [|v vs IH]; intros pos L H; simpl; [ reflexivity | ].
  rewrite <- (skip_len l pos). rewrite (d_find_eq _ H (incr_skipn _ I)).
  rewrite (find_view v H (incr_skipn _ I)). cbn [bind].
  pose proof (number_le (skipn pos l) v) as K. rewrite skip_len in K.
  destruct (_ =? length l) eqn:E; [ reflexivity | ]. apply Nat.eqb_neq in E.
  destruct (rd b _); cbn [bind]; [ | reflexivity | reflexivity ]. destruct (eqb a v); [ reflexivity | ].
  apply IH; [ lia | ]. eapply view_skipn; [ | exact H ]. lia.
Qed.
Lemma seek_post b p l : incr l -> forall vs pos np found, pos <= length l -> view b (p + pos) (skipn pos l) ->
  seek lt eqb b p (length l) pos vs = Ok (np, found) ->
  pos <= np /\ (exists pre, vs = pre ++ found) /\
  match found with
  | [] => True
  | w :: _ => nth_error l np = Some w /\
              forall x r vs', vs = r :: vs' -> nth_error l pos = Some x -> lt x r = true -> pos < np
  end.
Proof.
  intros I. induction vs as [|v vs IH]; intros pos np found L H; simpl.
  { intros E. injection E as <- <-. split; [ lia | ]. split; [ exists []; reflexivity | exact Logic.I ]. }
  rewrite <- (skip_len l pos). rewrite (find_view v H (incr_skipn _ I)). cbn [bind].
  pose proof (number_le (skipn pos l) v) as K. rewrite skip_len in K.
  set (k := number_less lt (skipn pos l) v) in *.
  destruct (Nat.eqb_spec (pos + k) (length l)) as [E|E].
  { intros Q. injection Q as <- <-. split; [ lia | ]. split; [ exists (v :: vs); rewrite app_nil_r; reflexivity | exact Logic.I ]. }
  destruct (nth_error l (pos + k)) as [y|] eqn:Y; [ | apply nth_error_None in Y; lia ].
  assert (R : rd b (p + (pos + k)) = Ok y).
  { rewrite Nat.add_assoc. apply H. rewrite nth_error_skip. exact Y. }
  assert (St : forall x r vs', v :: vs = r :: vs' -> nth_error l pos = Some x -> lt x r = true -> pos < pos + k).
  { intros x r vs' Q X Lt. injection Q as <- <-. unfold k.
    assert (0 < number_less lt (skipn pos l) v); [ | lia ]. apply number_pos with (x := x); auto.
    rewrite nth_error_skip, Nat.add_0_r. exact X. }
  rewrite R. cbn [bind]. destruct (eqb y v) eqn:Q.
  - intros Z. injection Z as <- <-. split; [ lia | ]. split; [ exists []; reflexivity | ]. apply (to_eq T) in Q. subst y.
    split; [ exact Y | exact St ].
  - intros Z. apply IH in Z; [ | lia | eapply view_skipn; [ | exact H ]; lia ].
    destruct Z as (A & (pre & B) & C). split; [ lia | ]. split; [ exists (v :: pre); rewrite B; reflexivity | ].
    destruct found as [|w fnd]; [ exact Logic.I | ]. destruct C as [C _]. split; [ exact C | ].
    intros x r vs' Q' X Lt. specialize (St x r vs' Q' X Lt). lia.
Qed.

Section CB.
Variable X : Type.
Variables cb cb' : callbacks V X.
(** [ready] is what the notifications of the removal of a range need of the state. *)
Variable ready : X -> Prop.
Hypothesis Hev : forall e x, match e with ERemoveN n pos _ => n <= pos + 1 /\ ready x | _ => True end -> imp (cb_ev cb e x) (cb_ev cb' e x).
Hypothesis Hready : forall e x x', ready x -> cb_ev cb e x = Ok x' -> ready x'.

Lemma incr_app_r l1 l2 : incr (l1 ++ l2) -> incr l2.
Proof. induction l1; simpl; auto. intros I. inversion I; auto. Qed.
Lemma i_remove_loop p l : incr l -> forall fuel b x n pos vs, ready x ->
  incr vs -> view b (p + pos) (skipn pos l) -> n <= pos -> (forall w rest, vs = w :: rest -> nth_error l pos = Some w) ->
  imp (remove_loop chk t lt eqb cb fuel b x p (length l) n pos vs)
      (d_remove_loop dbg chk t kind lt eqb cb' fuel b x p (length l) n pos vs).
Proof.
  intros I. induction fuel; intros b x n pos vs Rx Iv H N W.
  { destruct vs; simpl; apply imp_refl. }
  destruct vs as [|w rest]; [ simpl; apply imp_refl | ]. specialize (W w rest eq_refl). cbn [remove_loop d_remove_loop].
  assert (Lp : pos < length l) by (apply nth_error_Some; rewrite W; discriminate).
  rewrite (@d_seek_eq b p l I rest pos); [ | lia | exact H ]. apply imp_same. intros [np next] Sk.
  apply (@seek_post b p l I rest pos np next ltac:(lia) H) in Sk. destruct Sk as (A & (pre & B) & C).
  set (q := match next with [] => length l | _ => np end).
  assert (Q : pos < q).
  { unfold q. destruct next as [|w' next']; [ exact Lp | ]. destruct C as [_ C]. destruct rest as [|r rest']; [ destruct pre; discriminate | ].
    apply (C w r rest' eq_refl W). inversion Iv as [|? ? _ F]; subst. inversion F; auto. }
  apply imp_bind.
  { apply i_shiftDown; [ | lia ]. intros _. apply (view_pos H). intros Z. apply (f_equal (@length V)) in Z. rewrite skip_len in Z. simpl in Z. lia. }
  intros b1 Sh. apply shiftDown_frame in Sh. apply imp_bind; [ apply Hev; split; [ lia | exact Rx ] | ]. intros x1 Ex.
  destruct (Nat.eqb_spec q (length l)) as [Z|Z]; [ apply imp_refl | ].
  apply IHfuel.
  - eapply Hready; [ exact Rx | exact Ex ].
  - inversion Iv as [|? ? Ir _]; subst. eapply incr_app_r. exact Ir.
  - eapply (@view_frame (fun i => p + q <= i)); [ eapply view_skipn; [ | exact H ]; lia | exact Sh | ]. intros i _. lia.
  - lia.
  - intros w' rest' E. unfold q. subst next. destruct C as [C _]. exact C.
Qed.
Lemma e_removes b x p l vs : incr l -> incr vs -> view b p l -> (l <> [] -> ready x) ->
  imp (removes chk t lt eqb cb b x p (length l) vs) (d_removes dbg chk t kind lt eqb cb' b x p (length l) vs).
Proof.
  intros I Iv H Rx. unfold removes, d_removes. rewrite (ptr_ok H). cbn [bind].
  rewrite (range_ok _ H (unique_incr I)). cbn [bind]. unfold assert_ at 1, check_if. rewrite (unique_incr Iv). cbn [negb].
  rewrite andb_false_r. cbn [error_if bind].
  assert (H0 : view b (p + 0) (skipn 0 l)) by (rewrite Nat.add_0_r; exact H).
  rewrite (@d_seek_eq b p l I vs 0); [ | lia | exact H0 ]. apply imp_same. intros [pos found] Sk.
  apply (@seek_post b p l I vs 0 pos found ltac:(lia) H0) in Sk. destruct Sk as (A & (pre & B) & C).
  destruct found as [|w found]; [ apply imp_refl | ]. destruct C as [C _].
  apply imp_bind; [ | intros; apply imp_refl ]. apply i_remove_loop; auto.
  - apply Rx. intros ->. destruct pos; discriminate.
  - subst vs. eapply incr_app_r. exact Iv.
  - eapply view_skipn; [ | exact H0 ]. lia.
  - intros w' rest E. injection E as <- <-. exact C.
Qed.
Lemma e_sremove b x p l v : incr l -> view b p l ->
  imp (remove chk t lt eqb cb b x p (length l) v) (d_remove dbg chk t kind lt eqb cb' b x p (length l) v).
Proof.
  intros I H. unfold remove, d_remove. rewrite (ptr_ok H). cbn [bind]. rewrite (d_find_eq _ H I). same.
  destruct (_ =? length l); [ apply imp_refl | ]. same. destruct (negb _); [ apply imp_refl | ].
  apply imp_bind; [ apply i_erase | ]. intros b1 _. apply imp_bind; [ apply Hev; exact Logic.I | ]. intros; apply imp_refl.
Qed.

(** * insert *)
Lemma e_sinsert b x p l v : incr l -> view b p l ->
  (forall n, imp (cb_inc cb n (b, x)) (cb_inc cb' n (b, x))) ->
  imp (insert chk t lt eqb cb b x p (length l) v) (d_sinsert dbg chk t kind lt eqb cb' b x p (length l) v).
Proof.
  intros I H Hi. unfold insert, d_sinsert. rewrite (ptr_ok H). cbn [bind]. rewrite (range_ok _ H (unique_incr I)). cbn [bind].
  replace (d_insert_pos dbg kind lt b p (length l) v) with (insert_pos lt b p (length l) v)
    by (unfold insert_pos, d_insert_pos; rewrite (d_find_eq _ H I); reflexivity).
  same. apply imp_same. intros pr _. destruct pr.
  - apply imp_bind; [ apply Hi | ]. intros [[b1 x1] q] _. apply imp_refl.
  - apply imp_bind; [ apply Hi | ]. intros [[b1 x1] q] _. apply imp_bind; [ apply i_emplace | ]. intros b2 _.
    apply imp_bind; [ apply Hev; exact Logic.I | ]. intros; apply imp_refl.
Qed.
Lemma d_count_eq b p l : incr l -> view b p l -> forall rvs ub n, ub <= length l ->
  d_count_loop dbg kind lt eqb b p (length l) ub n rvs = count_loop lt eqb b p (length l) ub n rvs.
Proof.
  intros I H. induction rvs as [|v rvs IH]; intros ub n U; simpl; [ reflexivity | ].
  assert (Hf : view b p (firstn ub l)).
  { apply (@view_firstn b p ub (length l)); [ exact U | rewrite firstn_all; exact H ]. }
  assert (E : ub = length (firstn ub l)) by (rewrite firstn_length; lia).
  rewrite E at 1 2. rewrite (d_find_eq _ Hf (incr_firstn _ I)). rewrite (find_view v Hf (incr_firstn _ I)). cbn [bind].
  pose proof (number_le (firstn ub l) v) as K. rewrite <- E in K.
  destruct (if _ =? length l then _ else _) eqn:Q; cbn [bind]; [ | reflexivity | reflexivity ]. apply IH. lia.
Qed.
Lemma number_split l v : incr l -> exists a c, l = a ++ c /\ number_less lt l v = length a /\
  Forall (fun x => lt x v = true) a /\ Forall (fun x => lt x v = false) c.
Proof.
  intros I. assert (S : sorted lt l) by (apply (isSorted_iff (to_swo T)), sorted_incr; exact I).
  apply sorted_strong in S. destruct (split_less (to_swo T) v S) as (a & c & E & Fa & Fc).
  exists a, c. split; [ exact E | ]. split; [ rewrite E; apply number_less_split; assumption | split; assumption ].
Qed.
Lemma in_number l v : incr l -> (nth_error l (number_less lt l v) = Some v <-> In v l).
Proof.
  intros I. split; [ apply nth_error_In | ]. intros Hv. destruct (number_split v I) as (a & c & E & N & Fa & Fc).
  rewrite N, E. rewrite nth_error_app2 by lia. rewrite Nat.sub_diag. rewrite E in Hv. apply in_app_or in Hv. destruct Hv as [Hv|Hv].
  - rewrite Forall_forall in Fa. specialize (Fa v Hv). rewrite (swo_irr (to_swo T)) in Fa. discriminate.
  - destruct c as [|x c]; [ destruct Hv | ]. destruct Hv as [-> |Hv]; [ reflexivity | ].
    rewrite E in I. apply incr_app_r in I. inversion I as [|? ? _ F]; subst. rewrite Forall_forall in F. specialize (F v Hv).
    inversion Fc. congruence.
Qed.
Lemma above l v i x : incr l -> number_less lt l v <= i -> nth_error l i = Some x -> lt x v = false.
Proof.
  intros I L E. destruct (number_split v I) as (a & c & El & N & Fa & Fc). rewrite N in L. rewrite El in E.
  rewrite nth_error_app2 in E by lia. apply nth_error_In in E. rewrite Forall_forall in Fc. exact (Fc x E).
Qed.
Lemma number_first l v ub : (forall i x, ub <= i -> nth_error l i = Some x -> lt x v = false) ->
  number_less lt (firstn ub l) v = number_less lt l v.
Proof.
  intros H. rewrite <- (firstn_skipn ub l) at 2. unfold number_less. rewrite filter_app, app_length.
  replace (filter (fun x => lt x v) (skipn ub l)) with (@nil V); [ simpl; lia | ].
  assert (F : Forall (fun x => lt x v = false) (skipn ub l)).
  { apply Forall_forall. intros x Hx. apply In_nth_error in Hx. destruct Hx as [k K]. rewrite nth_error_skip in K.
    apply (H (ub + k) x); [ lia | exact K ]. }
  induction F as [|x r Fx F IH]; [ reflexivity | ]. simpl. rewrite Fx. exact IH.
Qed.
(** the number of the values which are not in [l] *)
Definition out (l : list V) (v : V) : bool := negb (existsb (eqb v) l).
Definition miss (l vs : list V) : nat := length (filter (out l) vs).
Lemma out_iff l v : out l v = true <-> ~ In v l.
Proof.
  unfold out. rewrite negb_true_iff. split.
  - intros E Hv. assert (K : existsb (eqb v) l = true); [ | congruence ]. apply existsb_exists. exists v. split; [ exact Hv | apply (to_eq T); reflexivity ].
  - intros N. destruct (existsb (eqb v) l) eqn:E; [ | reflexivity ]. apply existsb_exists in E. destruct E as (x & Hx & Q).
    apply (to_eq T) in Q. subst x. contradiction.
Qed.
Lemma out_in l v : out l v = false -> In v l.
Proof.
  unfold out. rewrite negb_false_iff. intros E. apply existsb_exists in E. destruct E as (x & Hx & Q). apply (to_eq T) in Q. subst x. exact Hx.
Qed.
Lemma lt_false x y : lt x y = true -> lt y x = false.
Proof.
  intros A. destruct (lt y x) eqn:E; [ | reflexivity ].
  pose proof (swo_trans (to_swo T) A E) as B. rewrite (swo_irr (to_swo T)) in B. discriminate.
Qed.
Lemma ge_trans x y z : lt x y = false -> lt z y = true -> lt z x = true.
Proof. intros A B. destruct (@swo_cotrans _ _ (to_swo T) z x y B); [ assumption | congruence ]. Qed.
Notation decr l := (StronglySorted (fun x y => lt y x = true) l).
Lemma count_view b p l : incr l -> view b p l -> forall rvs ub n, decr rvs -> ub <= length l ->
  (forall v i x, In v rvs -> ub <= i -> nth_error l i = Some x -> lt x v = false) ->
  count_loop lt eqb b p (length l) ub n rvs = Ok (n + miss l rvs).
Proof.
  intros I H. induction rvs as [|v rvs IH]; intros ub n Dv U G; simpl; [ unfold miss; simpl; f_equal; lia | ].
  assert (Hf : view b p (firstn ub l)).
  { apply (@view_firstn b p ub (length l)); [ exact U | rewrite firstn_all; exact H ]. }
  assert (E : ub = length (firstn ub l)) by (rewrite firstn_length; lia).
  rewrite E at 1. rewrite (find_view v Hf (incr_firstn _ I)). cbn [bind].
  rewrite (@number_first l v ub) by (intros i x; apply G; left; reflexivity).
  pose proof (number_le l v) as K. pose proof (in_number v I) as N. inversion Dv as [|? ? Dr F]; subst.
  assert (R : forall m, count_loop lt eqb b p (length l) (number_less lt l v) m rvs = Ok (m + miss l rvs)).
  { intros m. apply IH; [ exact Dr | exact K | ]. intros v' i x Hv' Li X'. rewrite Forall_forall in F. specialize (F v' Hv').
    pose proof (@above l v i x I Li X') as A. apply lt_false. exact (@ge_trans _ _ _ A F). }
  unfold miss. simpl. fold (miss l rvs).
  destruct (Nat.eqb_spec (number_less lt l v) (length l)) as [Z|Z]; cbn [bind].
  - rewrite R. assert (O : out l v = true).
    { apply out_iff. intros Hv. apply N in Hv. rewrite Z in Hv. assert (nth_error l (length l) = None) by (apply nth_error_None; lia). congruence. }
    rewrite O. simpl. f_equal. unfold miss. lia.
  - destruct (nth_error l (number_less lt l v)) as [y|] eqn:Y; [ | apply nth_error_None in Y; lia ].
    rewrite (H _ _ Y). cbn [bind]. rewrite R. f_equal. destruct (out l v) eqn:O.
    + replace (eqb y v) with false; [ simpl; unfold miss; lia | ]. symmetry. destruct (eqb y v) eqn:Q; [ | reflexivity ].
      apply (to_eq T) in Q. subst y. apply out_iff in O. exfalso. apply O, N. reflexivity.
    + replace (eqb y v) with true; [ simpl; unfold miss; lia | ]. symmetry. apply (to_eq T).
      apply out_in, N in O. congruence.
Qed.
Lemma i_insert_loop p l : incr l -> forall rvs b x ub, decr rvs -> ub <= length l -> view b p (firstn ub l) -> 0 < length b ->
  (forall v i x, In v rvs -> ub <= i -> nth_error l i = Some x -> lt v x = true) ->
  imp (insert_loop chk t lt eqb cb b x p ub (miss l rvs) rvs) (d_insert_loop dbg chk t kind lt eqb cb' b x p ub (miss l rvs) rvs).
Proof.
  intros I. induction rvs as [|v rvs IH]; intros b x ub Dv U H L G; [ simpl; apply imp_refl | ]. cbn [insert_loop d_insert_loop].
  assert (E : ub = length (firstn ub l)) by (rewrite firstn_length; lia).
  replace (d_find dbg kind lt b p ub v) with (find lt b p ub v).
  2:{ rewrite E. symmetry. apply d_find_eq; [ exact H | apply incr_firstn; exact I ]. }
  inversion Dv as [|? ? Dr F]; subst. rewrite Forall_forall in F.
  assert (Fd : find lt b p ub v = Ok (number_less lt l v)).
  { rewrite E at 1. rewrite (find_view v H (incr_firstn _ I)). f_equal. apply number_first. intros i y Li Y. apply lt_false.
    apply (G v i y); [ left; reflexivity | exact Li | exact Y ]. }
  assert (P : number_less lt l v <= ub).
  { rewrite E. rewrite <- (@number_first l v ub); [ apply number_le | ]. intros i y Li Y. apply lt_false.
    apply (G v i y); [ left; reflexivity | exact Li | exact Y ]. }
  rewrite Fd. cbn [bind]. set (pos := number_less lt l v) in *. pose proof (in_number v I) as N. fold pos in N.
  assert (Pr : (if pos =? ub then Ok false else y <- rd b (p + pos) ;; Ok (eqb y v)) = Ok (negb (out l v))).
  { destruct (Nat.eqb_spec pos ub) as [Z|Z].
    - replace (out l v) with true; [ reflexivity | ]. symmetry. apply out_iff. intros Hv. apply N in Hv.
      specialize (G v pos v ltac:(left; reflexivity) ltac:(lia) Hv). rewrite (swo_irr (to_swo T)) in G. discriminate.
    - destruct (nth_error l pos) as [y|] eqn:Y; [ | apply nth_error_None in Y; lia ].
      rewrite (H pos y). 2:{ rewrite <- (firstn_skipn ub l) in Y. rewrite nth_error_app1 in Y by lia. exact Y. }
      cbn [bind]. f_equal. destruct (out l v) eqn:O.
      + simpl. destruct (eqb y v) eqn:Q; [ | reflexivity ].
        apply (to_eq T) in Q. subst y. apply out_iff in O. exfalso. apply O, N. reflexivity.
      + simpl. apply (to_eq T). apply out_in, N in O. congruence. }
  rewrite Pr. cbn [bind]. unfold miss. cbn [filter]. destruct (out l v) eqn:O; cbn [negb].
  2:{ apply IH; auto. intros v' i y Hv' Li Y. apply (G v' i y); [ right; exact Hv' | exact Li | exact Y ]. }
  cbn [length]. replace (S (length (filter (out l) rvs)) - 1) with (miss l rvs) by (unfold miss; lia).
  set (n := S (length (filter (out l) rvs))) in *.
  apply imp_bind; [ apply i_shiftUp; intros _; exact L | ]. intros b1 Sh. apply shiftUp_frame in Sh.
  apply imp_same. intros d D. apply imp_same. intros b2 C. apply imp_bind; [ apply Hev; exact Logic.I | ]. intros x1 _.
  assert (Fr : frame (fun i => i < p + pos) b1 b2).
  { unfold sub_ix in D. destruct (1 <=? p + pos + n) eqn:Z; [ | discriminate ]. injection D as <-.
    apply (@place_frame V t (fun i => i < p + pos)) in C; [ exact C | unfold n; lia ]. }
  assert (L2 : 0 < length b2) by (destruct Sh as [K _], Fr as [K' _]; lia).
  apply IH; [ exact Dr | lia | | exact L2 | ].
  - eapply (@view_frame (fun i => i < p + pos)).
    + eapply view_firstn; [ exact P | exact H ].
    + exact (frame_trans Sh Fr).
    + intros i Li. rewrite firstn_length in Li. lia.
  - intros v' i y Hv' Li Y. exact (@ge_trans _ _ _ (@above l v i y I Li Y) (F v' Hv')).
Qed.
Lemma set_loop_imp : forall vs b x p n, imp (set_loop t cb b x p n vs) (set_loop t cb' b x p n vs).
Proof.
  induction vs as [|v vs IH]; intros; simpl; [ apply imp_refl | ]. same. apply imp_bind; [ apply Hev; exact Logic.I | ]. intros. apply IH.
Qed.
Lemma decr_rev vs : incr vs -> decr (rev vs).
Proof.
  intros I. induction I as [|v vs I IH F]; simpl; [ constructor | ]. clear I.
  rewrite Forall_forall in F. assert (F' : forall x, In x (rev vs) -> lt v x = true) by (intros x Hx; apply F, in_rev; exact Hx).
  clear F. revert IH F'. generalize (rev vs). intros r S. induction S as [|y r S IH G]; intros F; simpl; [ constructor; constructor | ].
  constructor; [ apply IH; intros x Hx; apply F; right; exact Hx | ]. apply Forall_app. split; [ exact G | ].
  constructor; [ apply F; left; reflexivity | constructor ].
Qed.
Lemma e_inserts b x p l vs : incr l -> incr vs -> view b p l ->
  (forall n, imp (cb_inc cb n (b, x)) (cb_inc cb' n (b, x))) ->
  (forall n b1 x1 q, cb_inc cb n (b, x) = Ok (b1, x1, q) -> view b1 q l) ->
  imp (inserts chk t lt eqb cb b x p (length l) vs) (d_inserts dbg chk t kind lt eqb cb' b x p (length l) vs).
Proof.
  intros I Iv H Hi Hw. unfold inserts, d_inserts. rewrite (ptr_ok H). cbn [bind].
  rewrite (range_ok _ H (unique_incr I)). cbn [bind]. unfold assert_ at 1, check_if. rewrite (unique_incr Iv). cbn [negb].
  rewrite andb_false_r. cbn [error_if bind]. destruct (Nat.eqb_spec (length l) 0) as [Z|Z].
  { apply imp_bind; [ apply Hi | ]. intros [[b1 x1] q] _. apply set_loop_imp. }
  assert (End : forall v i x, In v (rev vs) -> length l <= i -> nth_error l i = Some x -> False).
  { intros v i y _ Li Y. assert (nth_error l i = None) by (apply nth_error_None; exact Li). congruence. }
  rewrite (@d_count_eq b p l I H (rev vs) (length l) 0) by lia. rewrite (@count_view b p l I H (rev vs) (length l) 0 (decr_rev Iv)); [ | lia | intros v i y A B C; destruct (End v i y A B C) ].
  cbn [bind]. apply imp_bind; [ apply Hi | ]. intros [[b1 x1] q] Ei. specialize (Hw _ _ _ _ Ei).
  simpl. destruct (miss l (rev vs) =? 0); [ apply imp_refl | ]. apply imp_bind; [ | intros; apply imp_refl ].
  apply i_insert_loop; auto.
  - apply decr_rev. exact Iv.
  - rewrite firstn_all. exact Hw.
  - apply (view_pos Hw). intros ->. apply Z. reflexivity.
  - intros v i y A B C. destruct (End v i y A B C).
Qed.
End CB.
Section All.
Variable X : Type.
Variables cb cb' : callbacks V X.
Hypothesis Hev : forall e x, imp (cb_ev cb e x) (cb_ev cb' e x).
Lemma i_removes b x p l vs : incr l -> incr vs -> view b p l ->
  imp (removes chk t lt eqb cb b x p (length l) vs) (d_removes dbg chk t kind lt eqb cb' b x p (length l) vs).
Proof. intros. apply (@e_removes X cb cb' (fun _ => True)); auto. Qed.
Lemma i_sremove b x p l v : incr l -> view b p l ->
  imp (remove chk t lt eqb cb b x p (length l) v) (d_remove dbg chk t kind lt eqb cb' b x p (length l) v).
Proof. intros. apply (@e_sremove X cb cb' (fun _ => True)); auto. Qed.
Lemma i_sinsert b x p l v : incr l -> view b p l ->
  (forall n, imp (cb_inc cb n (b, x)) (cb_inc cb' n (b, x))) ->
  imp (insert chk t lt eqb cb b x p (length l) v) (d_sinsert dbg chk t kind lt eqb cb' b x p (length l) v).
Proof. intros. apply (@e_sinsert X cb cb' (fun _ => True)); auto. Qed.
Lemma i_inserts b x p l vs : incr l -> incr vs -> view b p l ->
  (forall n, imp (cb_inc cb n (b, x)) (cb_inc cb' n (b, x))) ->
  (forall n b1 x1 q, cb_inc cb n (b, x) = Ok (b1, x1, q) -> view b1 q l) ->
  imp (inserts chk t lt eqb cb b x p (length l) vs) (d_inserts dbg chk t kind lt eqb cb' b x p (length l) vs).
Proof. intros. apply (@e_inserts X cb cb' (fun _ => True)); auto. Qed.
End All.
End S.

(** * SortedArray *)
Section SA.
Variable V : Type.
Variables dbg chk t : bool.
Variable lt eqb : V -> V -> bool.
Variable dflt : V.
Hypothesis T : total_order lt eqb.
Notation kind := BMalloc.
Notation sa_ok := (@SortedArrayProofs.sa_ok V t lt).

Lemma holds_view (b : buf V) l : BufferManipProofs.holds t b l -> view b 0 l.
Proof. intros H i v E. simpl. eapply BufferManipProofs.holds_rd; eauto. Qed.
Lemma d_sstep_ok c a l : sa_ok a l -> allowed lt c ->
  ds_step dbg chk t kind lt eqb dflt c a = sstep chk t kind lt eqb dflt c a.
Proof.
  intros S Al. destruct (SortedArrayProofs.sstep_ok chk dflt T S Al) as (r & E & _). rewrite E. revert r E.
  fold (imp (sstep chk t kind lt eqb dflt c a) (ds_step dbg chk t kind lt eqb dflt c a)).
  destruct S as (H & Hs & I). pose proof (holds_view H) as Vw. unfold s_cb.
  assert (Ev : forall e x, imp (cb_ev (s_cb V chk t kind (s_size a)) e x) (cb_ev (ds_cb V dbg chk t kind (s_size a)) e x)) by (intros; apply imp_refl).
  assert (Hi : forall n, imp (cb_inc (s_cb V chk t kind (s_size a)) n (s_buf a, tt)) (cb_inc (ds_cb V dbg chk t kind (s_size a)) n (s_buf a, tt))).
  { intros n. simpl. apply imp_bind; [ apply i_dynamicReserve | intros; apply imp_refl ]. }
  assert (Hw : forall n b1 x1 q, cb_inc (s_cb V chk t kind (s_size a)) n (s_buf a, tt) = Ok (b1, x1, q) -> view b1 q l).
  { intros n b1 x1 q E. simpl in E. rewrite Hs in E.
    destruct (@BufferManipProofs.dynamicReserve_ok V chk t kind (s_buf a) l (length l + n) H (or_introl eq_refl)) as (b2 & E2 & H2 & _).
    rewrite E2 in E. cbn [bind] in E. injection E as <- <- <-. apply holds_view. exact H2. }
  destruct c as [v|vs|v|vs| |n]; simpl in *.
  - unfold s_insert, ds_insert. apply imp_bind; [ | intros; apply imp_refl ]. apply imp_bind; [ | intros; apply imp_refl ].
    rewrite Hs in *. apply i_sinsert; auto.
  - unfold s_inserts, ds_inserts. apply imp_bind; [ | intros; apply imp_refl ].
    rewrite Hs in *. apply i_inserts; auto. apply increasing_strong. exact Al.
  - unfold s_remove, ds_remove. apply imp_bind; [ | intros; apply imp_refl ]. apply imp_bind; [ | intros; apply imp_refl ].
    rewrite Hs in *. apply i_sremove; auto.
  - unfold s_removes, ds_removes. apply imp_bind; [ | intros; apply imp_refl ].
    rewrite Hs in *. apply i_removes; auto. apply increasing_strong. exact Al.
  - unfold s_clear, ds_clear. apply imp_bind; [ | intros; apply imp_refl ]. apply imp_bind; [ apply i_bresize | intros; apply imp_refl ].
  - unfold s_reserve, ds_reserve. apply imp_bind; [ | intros; apply imp_refl ]. apply imp_bind; [ apply i_reserve | intros; apply imp_refl ].
Qed.
(** Every argument which is not allowed is found. *)
Lemma d_sstep_abort c a l : sa_ok a l -> ~ allowed lt c -> ds_step true chk t kind lt eqb dflt c a = Abort.
Proof.
  intros (H & Hs & I) Al. pose proof (holds_view H) as Vw.
  assert (Q : forall vs, ~ increasing lt vs -> isSortedUnique lt vs = false).
  { intros vs N. destruct (isSortedUnique lt vs) eqn:E; [ | reflexivity ]. apply (isSortedUnique_iff (to_swo T)) in E. contradiction. }
  destruct c as [v|vs|v|vs| |n]; simpl in *; try (exfalso; apply Al; exact Logic.I).
  - unfold ds_inserts, d_inserts. rewrite Hs. rewrite (@ptr_ok V true kind _ _ _ Vw). cbn [bind].
    rewrite (@range_ok V true _ _ _ _ Vw (unique_incr T I)). cbn [bind]. rewrite (Q vs Al). reflexivity.
  - unfold ds_removes, d_removes. rewrite Hs. rewrite (@ptr_ok V true kind _ _ _ Vw). cbn [bind].
    rewrite (@range_ok V true _ _ _ _ Vw (unique_incr T I)). cbn [bind]. rewrite (Q vs Al). reflexivity.
Qed.
Lemma d_srun_ok h : forall a l, sa_ok a l -> Forall (allowed lt) h ->
  ds_run dbg chk t kind lt eqb dflt h a = srun chk t kind lt eqb dflt h a.
Proof.
  induction h as [|c h IH]; intros a l S F; [ reflexivity | ]. inversion F as [|? ? Ac Ah]; subst. cbn [ds_run srun].
  rewrite (@d_sstep_ok c a l S Ac). destruct (SortedArrayProofs.sstep_ok chk dflt T S Ac) as ([a' r] & E & l' & S' & _).
  rewrite E. cbn [bind]. rewrite (IH a' l' S' Ah). reflexivity.
Qed.
End SA.

Lemma d_srun_abort V chk t (lt eqb : V -> V -> bool) (dflt : V) (T : total_order lt eqb) h1 c h2 : forall a l,
  SortedArrayProofs.sa_ok t lt a l -> Forall (allowed lt) h1 -> ~ allowed lt c ->
  ds_run true chk t BMalloc lt eqb dflt (h1 ++ c :: h2) a = Abort.
Proof.
  induction h1 as [|d h IH]; intros a l S F N; cbn [app ds_run].
  - rewrite (@d_sstep_abort V chk t lt eqb dflt T c a l S N). reflexivity.
  - inversion F as [|? ? Ac Ah]; subst. rewrite (@d_sstep_ok V true chk t lt eqb dflt T d a l S Ac).
    destruct (SortedArrayProofs.sstep_ok chk dflt T S Ac) as ([a' r] & E & l' & S' & _).
    rewrite E. cbn [bind]. rewrite (IH a' l' S' Ah N). reflexivity.
Qed.
