(** RowTop.v for the members of ArrayOfSetsView, SparsityPatternView and CRSMatrixView. *)
From Coq Require Import List Arith ZArith Lia Bool Sorted.
From Verif Require Import Base BaseProofs Mem MemProofs BufferManip AoA AoALayout Sorted SortedSpec AoS Sparsity CRS Conc Prog ProgProofs ViewProg ViewSim RowSim RowSim2 RowPar RowTop RowSpec RowCalls RowInst.
From Verif Require SparsitySpec SortedProofs3 AoAProofs AoSProofs SetsProofs SetsProofs2 SortedProofs2 SparsityProofs CRSProofs CRSProofs2 CRSProofs3.
Import ListNotations.
Set Implicit Arguments.

(** ** Increasing lists *)
Section Keys.
Variables P K : Type.
Variable key : P -> K.
Variable lt eqb : K -> K -> bool.
Hypothesis T : total_order lt eqb.
Lemma with_pinsert x l : with_elem key lt x l = SortedProofs2.pinsert lt eqb key x l.
Proof.
  induction l as [|y l IH]; cbn; auto. rewrite IH. destruct T as [[Irr Tr _] Tot Eq].
  destruct (lt (key x) (key y)) eqn:L1.
  - destruct (lt (key y) (key x)) eqn:L2; [pose proof (Tr _ _ _ L1 L2) as C; rewrite Irr in C; discriminate|].
    destruct (eqb (key y) (key x)) eqn:E; auto. apply Eq in E. rewrite E, Irr in L1. discriminate.
  - destruct (lt (key y) (key x)) eqn:L2; auto. rewrite (proj2 (Eq _ _) (Tot _ _ L2 L1)). reflexivity.
Qed.
Lemma with_pinserts ws l : fold_right (with_elem key lt) l ws = fold_right (SortedProofs2.pinsert lt eqb key) l ws.
Proof. induction ws as [|w ws IH]; cbn; auto. rewrite IH. apply with_pinsert. Qed.
End Keys.
Lemma incb_strong K (lt : K -> K -> bool) l : (forall x y z, lt x y = true -> lt y z = true -> lt x z = true) -> incb lt l = true ->
  StronglySorted (fun x y => lt x y = true) l.
Proof.
  intros Tr. induction l as [|x l IH]; cbn; intros E; [constructor|]. destruct l as [|y l].
  - repeat constructor.
  - apply andb_true_iff in E. destruct E as [E1 E2]. specialize (IH E2). constructor; auto. constructor; auto.
    inversion IH as [|? ? ? F]; subst. eapply Forall_impl; [|exact F]. cbn. eauto.
Qed.
Lemma strong_map P K (lt : K -> K -> bool) (key : P -> K) l : StronglySorted (fun x y => lt x y = true) (map key l) ->
  StronglySorted (fun x y => lt (key x) (key y) = true) l.
Proof.
  induction l as [|x l IH]; cbn; intros S; constructor; inversion S as [|? ? S1 F]; subst; auto. rewrite Forall_map in F. exact F.
Qed.
Lemma okb_true A (m : outcome A) Q : okb true m Q -> oks m Q.
Proof. intros [H|[C _]]; [exact H|discriminate]. Qed.

(** ** Reading *)
Section Read.
Variables P V W : Type.
Variable fv : P -> V.
Variable fw : P -> W.
Variable chk tv tw dual : bool.
Notation aok := (@AoAProofs.aok P V W fv fw tv tw dual).
Lemma read_at a A l k B j x : aok a (A ++ (l, k) :: B) -> nth_error l j = Some x -> aoa_at chk a (length A) j = Ok (fv x).
Proof.
  intros [Ia [Lv Le]] J. assert (Lt : j < length l) by (apply nth_error_Some; rewrite J; discriminate).
  unfold aoa_at, slot, check_array2. pose proof (SetsProofs.row_check chk Ia) as Ck. unfold check_array in Ck.
  pose proof (SetsProofs.row_values fv chk Ia) as Ev. unfold getSetValues in Ev. rewrite (SetsProofs.row_check chk Ia) in Ev. cbn [bind] in Ev.
  assert (Ch : (if chk then _ <- error_if (numArrays a <=? length A) ;; s <- size_ a (length A) ;; error_if (s <=? j) else Ok tt) = Ok tt).
  { destruct chk; auto. unfold check_if in Ck. cbn [andb] in Ck. unfold error_if at 1. rewrite Ck. cbn [bind]. rewrite (SetsProofs.row_size_ Ia). cbn [bind].
    apply error_if_ok. apply Nat.leb_gt. exact Lt. }
  rewrite Ch. cbn [bind]. rewrite Ev. cbn [bind]. destruct (SetsProofs.lay_row Lv) as [q Mm].
  eapply MemProofs.rd_nth; [exact Mm|]. rewrite nth_error_app2 by lia. rewrite Nat.add_comm, Nat.add_sub.
  rewrite nth_error_app1 by (rewrite !map_length; lia). rewrite !nth_error_map, J. reflexivity.
Qed.
Variable lt eqb : V -> V -> bool.
Hypothesis T : total_order lt eqb.
Lemma read_contains a A l k B v : aok a (A ++ (l, k) :: B) -> StronglySorted (fun x y => lt (fv x) (fv y) = true) l ->
  aos_contains chk lt eqb a (length A) v = Ok (has fv eqb v l).
Proof.
  intros [I [Ev _]] Ir. unfold aos_contains. rewrite (SetsProofs.row_check chk I). cbn [bind]. rewrite (SetsProofs.row_size chk I). cbn [bind].
  rewrite (SetsProofs.row_values fv chk I). cbn [bind]. destruct (SetsProofs.lay_row Ev) as [q Mm].
  exact (@SortedProofs3.contains_ok V P tv lt eqb fv T (vals a) (flat fv A) (repeat LN k ++ flat fv B ++ repeat LN q) l v _ _ Mm Ir eq_refl eq_refl).
Qed.
End Read.

Section Sets.
Variables V W : Type.
Variable fw : V -> W.
Variable chk tv tw : bool.
Variable lt eqb : V -> V -> bool.
Hypothesis T : total_order lt eqb.
Notation idv := (fun v : V => v).
Notation aok := (@AoAProofs.aok V V W idv fw tv tw false).
Notation heap := (heap V W).
Notation pincr l := (StronglySorted (fun x y : V => lt x y = true) l).

Lemma sets_sim n i0 o no ns nv ne op a i a' r h ix (Q : answer V -> heap -> Prop) : f_scall chk tv lt eqb op a i = Ok (a', r) ->
  part n i0 o no ns nv ne a h -> ix = i0 + i -> (forall h', part n i0 o no ns nv ne a' h' -> Q r h') ->
  wp (readable i0 o no ns nv ne) (owned i0 o ns nv ne) (p_scall W chk tv lt eqb n op ix) h Q.
Proof.
  intros E H Ei HQ. destruct op; cbn [f_scall p_scall] in *; unfold omap, onew, pmap in *; binv E x Ex; apply wp_bind.
  - destruct x as [a1 b]. injection E as <- <-. eapply sim_v_insertIntoSet; [exact Ex|exact H|exact Ei|exact HQ].
  - destruct x as [a1 b]. injection E as <- <-. eapply sim_v_insertsIntoSet; [exact Ex|exact H|exact Ei|exact HQ].
  - destruct x as [a1 b]. injection E as <- <-. eapply sim_removeFromSet; [exact Ex|exact H|exact Ei|exact HQ].
  - destruct x as [a1 b]. injection E as <- <-. eapply sim_removesFromSet; [exact Ex|exact H|exact Ei|exact HQ].
  - injection E as <- <-. eapply sim_contains; [exact Ex|exact H|exact Ei|]. apply HQ. exact H.
  - injection E as <- <-. eapply sim_at; [exact Ex|exact H|exact Ei|]. apply HQ. exact H.
  - injection E as <- <-. eapply sim_sizeOfArray; [exact Ex|exact H|exact Ei|]. apply HQ. exact H.
Qed.
Lemma filter_le A (f : A -> bool) l : length (filter f l) <= length l.
Proof. induction l as [|x l IH]; cbn; [lia|]. destruct (f x); cbn; lia. Qed.
Lemma sets_fit c (op : scall V) l l' r : length l <= c -> s_next lt eqb c op l = Some (l', r) -> length l' <= c.
Proof.
  intros L E. destruct op; cbn [s_next] in E; cbv zeta in E.
  - gd E. exact G.
  - gd E. tauto.
  - injection E as <- <-. unfold without. pose proof (filter_le (fun x => negb (existsb (eqb (idv x)) [v])) l). lia.
  - gd E. unfold without. pose proof (filter_le (fun x => negb (existsb (eqb (idv x)) vs)) l). lia.
  - injection E as <- <-. exact L.
  - destruct (nth_error l j); [|discriminate]. injection E as <- <-. exact L.
  - injection E as <- <-. exact L.
Qed.
Lemma trans_lt x y z : lt x y = true -> lt y z = true -> lt x z = true.
Proof. destruct T as [[_ Tr _] _ _]. apply Tr. Qed.
Lemma sets_good c (op : scall V) l l' r : pincr l -> length l <= c -> s_next lt eqb c op l = Some (l', r) -> pincr l'.
Proof.
  intros I L E. destruct op; cbn [s_next] in E; cbv zeta in E.
  - gd E. rewrite (with_pinsert idv T). apply (@SortedProofs2.pinsert_incr V V lt eqb idv T); auto.
  - gd E. rewrite (with_pinserts idv T). apply (@SortedProofs2.pinserts_incr V V lt eqb idv T); auto.
  - injection E as <- <-. apply (@SortedProofs2.pdiff_incr V V lt eqb idv); auto.
  - gd E. apply (@SortedProofs2.pdiff_incr V V lt eqb idv); auto.
  - injection E as <- <-. exact I.
  - destruct (nth_error l j); [|discriminate]. injection E as <- <-. exact I.
  - injection E as <- <-. exact I.
Qed.
Lemma sets_ok op a A l k B l' r : aok a (A ++ (l, k) :: B) -> pincr l -> s_next lt eqb (length l + k) op l = Some (l', r) -> length l' <= length l + k ->
  exists a', f_scall chk tv lt eqb op a (length A) = Ok (a', r) /\ aok a' (A ++ (l', length l + k - length l') :: B).
Proof.
  intros H I E F. assert (Sk : length l + k - length l = k) by lia. destruct op; cbn [s_next f_scall] in *; cbv zeta in E.
  - gd E. rewrite (with_pinsert idv T) in *. pose proof (@SortedProofs2.pinsert_length V V lt eqb idv T v l I) as El. cbv beta in El.
    destruct (okb_true (@AoSProofs.ins_plain V W fw chk tv tw lt eqb T (view_cb V W chk (length A)) (fun _ _ => eq_refl) a A l k B v (length l + k) true H I
      (okb_oks true (@AoSProofs.view_inc_ok V W fw chk tv tw a A l k B (if SortedProofs2.present eqb idv l v then 0 else 1) H ltac:(lia))))) as ([a' r] & Ea & Er & H').
    exists a'. cbn [fst snd] in *. unfold omap, v_insertIntoSet. rewrite Ea. cbn [bind]. rewrite Er. split; auto.
  - gd E. destruct G as [Gi Gc]. apply (incb_strong _ _ trans_lt) in Gi. rewrite (with_pinserts idv T) in *.
    pose proof (@SortedProofs2.pinserts_length V V lt eqb idv T vs l I Gi) as El.
    destruct (okb_true (@AoSProofs.inss_plain V W fw chk tv tw lt eqb T (view_cb V W chk (length A)) (fun _ _ => eq_refl) a A l k B vs (length l + k) true H I Gi
      (okb_oks true (@AoSProofs.view_inc_ok V W fw chk tv tw a A l k B (SortedProofs2.absent eqb idv l vs) H ltac:(lia))))) as ([a' r] & Ea & Er & H').
    exists a'. cbn [fst snd] in *. unfold omap, v_insertsIntoSet. rewrite Ea. cbn [bind]. rewrite Er. split; auto. do 3 f_equal. lia.
  - injection E as <- <-. destruct (@AoSProofs.rem_plain V W fw chk tv tw lt eqb T (view_cb V W chk (length A)) (fun _ _ => eq_refl) a A l k B v H I) as ([a' r] & Ea & Er & El & H').
    exists a'. cbn [fst snd] in *. unfold omap, removeFromSet. rewrite Ea. cbn [bind]. rewrite Er. split; auto.
  - gd E. apply (incb_strong _ _ trans_lt) in G.
    destruct (@AoSProofs.rems_plain V W fw chk tv tw lt eqb T (view_cb V W chk (length A)) (fun _ _ => eq_refl) a A l k B vs H I G) as ([a' r] & Ea & El & H').
    exists a'. cbn [fst snd] in *. unfold omap, removesFromSet. rewrite Ea. cbn [bind]. split; auto. do 3 f_equal.
    change (without idv eqb vs l) with (SortedProofs2.pdiff eqb idv l vs). lia.
  - injection E as <- <-. exists a. unfold onew. rewrite (got _ (@read_contains V V W idv fw chk tv tw false lt eqb T a A l k B v H I)), Sk. auto.
  - destruct (nth_error l j) as [y|] eqn:Ny; [|discriminate]. injection E as <- <-. exists a. unfold onew.
    rewrite (got _ (@read_at V V W idv fw chk tv tw false a A l k B j y H Ny)), Sk. auto.
  - injection E as <- <-. exists a. unfold onew. rewrite (got _ (SetsProofs.row_size chk (proj1 H))), Sk. auto.
Qed.

Theorem sets_top a L ths M' rs : aok a L -> Forall (fun x => pincr (fst x)) L -> separate ths ->
  calls_run (s_next lt eqb) (map (@wid V) L) (concat ths) (map fst L) = Some (M', rs) ->
  exists a' rss L', rs = concat rss /\ f_calls (f_scall chk tv lt eqb) (concat ths) a = Ok (a', rs) /\
    aok a' L' /\ Forall (fun x => pincr (fst x)) L' /\ map fst L' = M' /\ map (@wid V) L' = map (@wid V) L /\
    exists steps, forall sched, exists h' ths', exec (@access V W (list (answer V))) sched (heap_of a) (map (p_calls (p_scall W chk tv lt eqb) (numArrays a)) ths) = Ok (h', ths') /\ no_race ths' /\
      (fair (length ths) steps sched -> done ths') /\
      (done ths' -> ths' = map Ret rss /\ forall b i, h' b i = heap_of a' b i).
Proof.
  intros H G S E. destruct (@rows_top V V W idv fw tv tw false (scall V) (answer V) (p_scall W chk tv lt eqb) (f_scall chk tv lt eqb) (s_next lt eqb) (fun l => pincr l)
    sets_sim sets_ok sets_good sets_fit a L ths M' rs H) as (a' & rss & L' & H1 & H2 & H3 & H3' & H4 & H5 & H6); auto.
  exists a', rss, L'. auto 10.
Qed.
End Sets.

Section Patterns.
Variable W : Type.
Variable fw : Z -> W.
Variable chk tw : bool.
Variable nc : nat.
Notation idv := (fun v : Z => v).
Notation aok := (@AoAProofs.aok Z Z W idv fw true tw false).
Notation heap := (heap Z W).
Notation pincr l := (StronglySorted (fun x y : Z => (x <? y)%Z = true) l).
Notation zo := SparsityProofs.zorder.

Lemma patterns_sim n i0 o no ns nv ne op a i a' r h ix (Q : answer Z -> heap -> Prop) : f_pcall chk nc op a i = Ok (a', r) ->
  part n i0 o no ns nv ne a h -> ix = i0 + i -> (forall h', part n i0 o no ns nv ne a' h' -> Q r h') ->
  wp (readable i0 o no ns nv ne) (owned i0 o ns nv ne) (p_pcall W chk nc n op ix) h Q.
Proof.
  intros E H Ei HQ. destruct op; cbn [f_pcall p_pcall] in *; cbv zeta in E; unfold orows, onew, pmap in *; binv E x Ex; apply wp_bind.
  - destruct x as [p b]. injection E as <- <-. eapply sim_insertNonZero; [exact Ex|exact H|exact Ei|exact HQ].
  - destruct x as [p b]. injection E as <- <-. eapply sim_insertNonZeros; [exact Ex|exact H|exact Ei|exact HQ].
  - destruct x as [p b]. injection E as <- <-. eapply sim_removeNonZero; [exact Ex|exact H|exact Ei|exact HQ].
  - destruct x as [p b]. injection E as <- <-. eapply sim_removeNonZeros; [exact Ex|exact H|exact Ei|exact HQ].
  - injection E as <- <-. unfold sp_empty in Ex. cbn [rows] in Ex. binv Ex b Eb. injection Ex as <-. eapply sim_contains; [exact Eb|exact H|exact Ei|]. apply HQ. exact H.
  - injection E as <- <-. eapply sim_at; [exact Ex|exact H|exact Ei|]. apply HQ. exact H.
  - injection E as <- <-. eapply sim_sizeOfArray; [exact Ex|exact H|exact Ei|]. apply HQ. exact H.
Qed.
Lemma p_s c op l l' r : p_next nc c op l = Some (l', r) -> forallb (column_ok nc) (scols op) = true /\ exists r', s_next Z.ltb Z.eqb c op l = Some (l', r').
Proof.
  unfold p_next. destruct (forallb (column_ok nc) (scols op)); [|discriminate]. intros E. split; auto. destruct op; eauto. injection E as <- <-. cbn. eauto.
Qed.
Lemma patterns_fit c (op : scall Z) l l' r : length l <= c -> p_next nc c op l = Some (l', r) -> length l' <= c.
Proof. intros L E. destruct (p_s _ _ _ E) as [_ [r' E']]. eapply sets_fit; [exact L|exact E']. Qed.
Lemma patterns_good c (op : scall Z) l l' r : pincr l -> length l <= c -> p_next nc c op l = Some (l', r) -> pincr l'.
Proof. intros I L E. destruct (p_s _ _ _ E) as [_ [r' E']]. eapply (sets_good zo); [exact I|exact L|exact E']. Qed.
Lemma range_ok v : column_ok nc v = true -> SparsitySpec.in_range nc v.
Proof. unfold column_ok. intros E. apply andb_true_iff in E. destruct E as [E1 E2]. split; [apply Z.leb_le|apply Z.ltb_lt]; auto. Qed.
Lemma ranges_ok vs : forallb (column_ok nc) vs = true -> Forall (SparsitySpec.in_range nc) vs.
Proof. intros E. apply Forall_forall. intros v Hv. apply range_ok. rewrite forallb_forall in E. auto. Qed.
Lemma range1_ok v : forallb (column_ok nc) [v] = true -> SparsitySpec.in_range nc v.
Proof. cbn. rewrite andb_true_r. apply range_ok. Qed.
Lemma orows_omap {R} (f : R -> answer Z) (m : outcome (aoa Z W * R)) a : orows f (with_rows (mkSP a nc) m) = omap f m.
Proof. unfold orows, with_rows, omap. destruct m as [[a' r]| |]; reflexivity. Qed.
Lemma patterns_ok op a A l k B l' r : aok a (A ++ (l, k) :: B) -> pincr l -> p_next nc (length l + k) op l = Some (l', r) -> length l' <= length l + k ->
  exists a', f_pcall chk nc op a (length A) = Ok (a', r) /\ aok a' (A ++ (l', length l + k - length l') :: B).
Proof.
  intros H I E F. destruct (p_s _ _ _ E) as [G [r' E']].
  destruct (@sets_ok Z W fw chk true tw Z.ltb Z.eqb zo op a A l k B l' r' H I E' F) as (a' & Ea & H'). exists a'. split; auto.
  unfold p_next in E. rewrite G in E. pose proof (SetsProofs.row_check chk (proj1 H)) as Ck.
  destruct op; cbn [f_pcall f_scall scols] in *; cbv zeta; unfold v_insertNonZero, v_insertNonZeros, removeNonZero, removeNonZeros; cbn [rows]; rewrite ?Ck; cbn [bind].
  - rewrite (SparsityProofs.check_range chk (p:=mkSP a nc) eq_refl (range1_ok _ G)). cbn [bind]. rewrite orows_omap, Ea. congruence.
  - rewrite (SparsityProofs.checks_range chk (p:=mkSP a nc) eq_refl (ranges_ok _ G)). cbn [bind]. rewrite orows_omap, Ea. congruence.
  - rewrite (SparsityProofs.check_range chk (p:=mkSP a nc) eq_refl (range1_ok _ G)). cbn [bind]. rewrite orows_omap, Ea. congruence.
  - rewrite (SparsityProofs.checks_range chk (p:=mkSP a nc) eq_refl (ranges_ok _ G)). cbn [bind]. rewrite orows_omap, Ea. congruence.
  - injection E as <- <-. unfold onew, sp_empty in *. cbn [rows]. pose proof (@read_contains Z Z W idv fw chk true tw false Z.ltb Z.eqb zo a A l k B v H I) as Ec.
    rewrite Ec in *. cbn [bind] in *. congruence.
  - unfold column. cbn [rows]. rewrite Ea. congruence.
  - unfold numNonZeros. cbn [rows]. rewrite Ea. congruence.
Qed.
Theorem patterns_top a L ths M' rs : aok a L -> Forall (fun x => pincr (fst x)) L -> separate ths ->
  calls_run (p_next nc) (map (@wid Z) L) (concat ths) (map fst L) = Some (M', rs) ->
  exists a' rss L', rs = concat rss /\ f_calls (f_pcall chk nc) (concat ths) a = Ok (a', rs) /\
    aok a' L' /\ Forall (fun x => pincr (fst x)) L' /\ map fst L' = M' /\ map (@wid Z) L' = map (@wid Z) L /\
    exists steps, forall sched, exists h' ths', exec (@access Z W (list (answer Z))) sched (heap_of a) (map (p_calls (p_pcall W chk nc) (numArrays a)) ths) = Ok (h', ths') /\ no_race ths' /\
      (fair (length ths) steps sched -> done ths') /\
      (done ths' -> ths' = map Ret rss /\ forall b i, h' b i = heap_of a' b i).
Proof.
  intros H G S E. destruct (@rows_top Z Z W idv fw true tw false (scall Z) (answer Z) (p_pcall W chk nc) (f_pcall chk nc) (p_next nc) (fun l => pincr l)
    patterns_sim patterns_ok patterns_good patterns_fit a L ths M' rs H) as (a' & rss & L' & H1 & H2 & H3 & H3' & H4 & H5 & H6); auto.
  exists a', rss, L'. auto 10.
Qed.
End Patterns.

Section Matrices.
Variable W : Type.
Variable chk tw : bool.
Variable nc : nat.
Notation P := (Z * W)%type.
Notation key := (@fst Z W).
Notation aok := (@AoAProofs.aok P Z W fst snd true tw true).
Notation heap := (heap Z W).
Notation pincr l := (StronglySorted (fun x y : P => (fst x <? fst y)%Z = true) l).
Notation zo := SparsityProofs.zorder.

Lemma matrices_sim n i0 o no ns nv ne op a i a' r h ix (Q : answer (Z + W) -> heap -> Prop) : f_mcall chk nc tw op a i = Ok (a', r) ->
  part n i0 o no ns nv ne a h -> ix = i0 + i -> (forall h', part n i0 o no ns nv ne a' h' -> Q r h') ->
  wp (readable i0 o no ns nv ne) (owned i0 o ns nv ne) (p_mcall chk tw n op ix) h Q.
Proof.
  intros E H Ei HQ. destruct op; cbn [f_mcall p_mcall] in *; cbv zeta in E; unfold orows, onew, oret, pmap, ret in *; binv E x Ex; apply wp_bind.
  - destruct x as [p b]. injection E as <- <-. eapply sim_crs_insert; [exact Ex|exact H|exact Ei|exact HQ].
  - destruct x as [p b]. injection E as <- <-. eapply sim_crs_inserts; [exact Ex|exact H|exact Ei|exact HQ].
  - destruct x as [p b]. injection E as <- <-. eapply sim_crs_remove; [exact Ex|exact H|exact Ei|exact HQ].
  - destruct x as [p b]. injection E as <- <-. eapply sim_crs_removes; [exact Ex|exact H|exact Ei|exact HQ].
  - injection E as <- <-. unfold sp_empty in Ex. cbn [rows] in Ex. binv Ex b Eb. injection Ex as <-. eapply sim_contains; [exact Eb|exact H|exact Ei|]. apply HQ. exact H.
  - injection E as <- <-. eapply sim_at; [exact Ex|exact H|exact Ei|]. apply HQ. exact H.
  - injection E as <- <-. eapply sim_entry; [exact Ex|exact H|exact Ei|]. apply HQ. exact H.
  - injection E as <- <-. eapply sim_sizeOfArray; [exact Ex|exact H|exact Ei|]. apply HQ. exact H.
  - injection E as <- <-. eapply sim_set_row; [exact Ex|exact H|exact Ei|exact HQ].
Qed.
Lemma matrices_fit c (op : mcall W) l l' r : length l <= c -> m_next c op l = Some (l', r) -> length l' <= c.
Proof.
  intros L E. destruct op; cbn [m_next] in E; cbv zeta in E.
  - gd E. exact G.
  - gd E. tauto.
  - injection E as <- <-. unfold without. pose proof (filter_le (fun x => negb (existsb (Z.eqb (key x)) [col])) l). lia.
  - gd E. unfold without. pose proof (filter_le (fun x => negb (existsb (Z.eqb (key x)) cols)) l). lia.
  - injection E as <- <-. exact L.
  - destruct (nth_error l j); [|discriminate]. injection E as <- <-. exact L.
  - destruct (nth_error l j); [|discriminate]. injection E as <- <-. exact L.
  - injection E as <- <-. exact L.
  - injection E as <- <-. rewrite map_length. exact L.
Qed.
Lemma set_incr w l : pincr l -> pincr (map (fun x : P => (fst x, w)) l).
Proof.
  induction l as [|x l IH]; cbn; intros S; [constructor|]. inversion S as [|? ? S1 F]; subst. constructor; auto. rewrite Forall_map. exact F.
Qed.
Lemma matrices_good c (op : mcall W) l l' r : pincr l -> length l <= c -> m_next c op l = Some (l', r) -> pincr l'.
Proof.
  intros I L E. destruct op; cbn [m_next] in E; cbv zeta in E.
  - gd E. rewrite (with_pinsert key zo). apply (@SortedProofs2.pinsert_incr Z P Z.ltb Z.eqb key zo); auto.
  - gd E. rewrite (with_pinserts key zo). apply (@SortedProofs2.pinserts_incr Z P Z.ltb Z.eqb key zo); auto.
  - injection E as <- <-. apply (@SortedProofs2.pdiff_incr Z P Z.ltb Z.eqb key); auto.
  - gd E. apply (@SortedProofs2.pdiff_incr Z P Z.ltb Z.eqb key); auto.
  - injection E as <- <-. exact I.
  - destruct (nth_error l j); [|discriminate]. injection E as <- <-. exact I.
  - destruct (nth_error l j); [|discriminate]. injection E as <- <-. exact I.
  - injection E as <- <-. exact I.
  - injection E as <- <-. apply set_incr. exact I.
Qed.
Lemma read_entry a A l k B j x : aok a (A ++ (l, k) :: B) -> nth_error l j = Some x -> entry chk (mkSP a nc) (length A) j = Ok (snd x).
Proof.
  intros [Ia [Lv Le]] J. assert (Lt : j < length l) by (apply nth_error_Some; rewrite J; discriminate).
  unfold entry. cbn [rows]. rewrite (CRSProofs2.row_entries chk Ia). cbn [bind]. rewrite (SetsProofs.row_size_ Ia). cbn [bind].
  rewrite check_if_ok by (apply Nat.leb_gt; exact Lt). cbn [bind]. destruct (SetsProofs.lay_row (Le eq_refl)) as [q Mm].
  replace (length (AoALayout.flat (@fst Z W) A)) with (length (AoALayout.flat (@snd Z W) A)) by (rewrite !AoALayout.flat_length; reflexivity).
  eapply MemProofs.rd_nth; [exact Mm|]. rewrite nth_error_app2 by lia. rewrite Nat.add_comm, Nat.add_sub.
  rewrite nth_error_app1 by (rewrite !map_length; lia). rewrite !nth_error_map, J. reflexivity.
Qed.
Lemma ztrans x y z : (x <? y)%Z = true -> (y <? z)%Z = true -> (x <? z)%Z = true.
Proof. rewrite !Z.ltb_lt. lia. Qed.
Lemma matrices_ok op a A l k B l' r : aok a (A ++ (l, k) :: B) -> pincr l -> m_next (length l + k) op l = Some (l', r) -> length l' <= length l + k ->
  exists a', f_mcall chk nc tw op a (length A) = Ok (a', r) /\ aok a' (A ++ (l', length l + k - length l') :: B).
Proof.
  intros H I E F. assert (Sk : length l + k - length l = k) by lia. pose proof (proj1 H) as Ia. destruct op; cbn [m_next f_mcall] in *; cbv zeta in E |- *.
  - gd E. rewrite (with_pinsert key zo) in *. pose proof (@SortedProofs2.pinsert_length Z P Z.ltb Z.eqb key zo (col, w) l I) as El. cbn [fst] in El.
    destruct (okb_true (@CRSProofs2.ins_row W chk tw true (crs_view_cb chk tw (length A) (length l) (length l + k) [w]) a A l k B (col, w) (length l + k) (length (flat fst A)) H I (fun _ => eq_refl)
      (okb_oks true (@CRSProofs2.view_inc W chk tw [w] a A l k B (if SortedProofs2.present Z.eqb key l col then 0 else 1) H ltac:(lia))))) as ([a' r] & Ea & Er & H').
    exists a'. cbn [fst snd] in *. unfold orows, crs_v_insertNonZero, numNonZeros, nonZeroCapacity, with_rows. cbn [rows ncols].
    rewrite (SetsProofs.row_size chk Ia). cbn [bind]. rewrite (SetsProofs.row_capacity chk Ia). cbn [bind]. rewrite (CRSProofs2.row_entries chk Ia). cbn [bind].
    rewrite Ea. cbn [bind rows]. rewrite Er. split; auto.
  - gd E. destruct G as [Gi Gc]. apply (incb_strong _ _ ztrans) in Gi. apply strong_map in Gi. rewrite (with_pinserts key zo) in *.
    pose proof (@SortedProofs2.pinserts_length Z P Z.ltb Z.eqb key zo cws l I Gi) as El.
    destruct (okb_true (@CRSProofs2.inss_row W chk tw true (crs_view_cb chk tw (length A) (length l) (length l + k) (map snd cws)) a A l k B cws (length l + k) (length (flat fst A)) H I Gi (fun _ => eq_refl)
      (okb_oks true (@CRSProofs2.view_inc W chk tw (map snd cws) a A l k B (SortedProofs2.absent Z.eqb key l cws) H ltac:(lia))))) as ([a' r] & Ea & Er & H').
    exists a'. cbn [fst snd] in *. unfold orows, crs_v_insertNonZeros, numNonZeros, nonZeroCapacity, with_rows. cbn [rows ncols].
    rewrite (SetsProofs.row_size chk Ia). cbn [bind]. rewrite (SetsProofs.row_capacity chk Ia). cbn [bind]. rewrite (CRSProofs2.row_entries chk Ia). cbn [bind].
    rewrite Ea. cbn [bind rows]. rewrite Er. split; auto. do 3 f_equal. lia.
  - injection E as <- <-. destruct (@CRSProofs2.rem_row W chk tw (length l + k) a A l k B col H I) as ([a' r] & Ea & Er & El & H').
    exists a'. cbn [fst snd] in *. unfold orows, crs_removeNonZero, numNonZeros, nonZeroCapacity, with_rows. cbn [rows ncols].
    rewrite (SetsProofs.row_size chk Ia). cbn [bind]. rewrite (SetsProofs.row_capacity chk Ia). cbn [bind]. rewrite (CRSProofs2.row_entries chk Ia). cbn [bind].
    rewrite Ea. cbn [bind rows]. rewrite Er. split; auto.
  - gd E. apply (incb_strong _ _ ztrans) in G. destruct (@CRSProofs2.rems_row W chk tw nc a A l k B cols H I G) as ([p' r] & Ea & El & En & H').
    exists (rows p'). cbn [fst snd] in *. unfold orows. rewrite Ea. cbn [bind]. split; auto. do 3 f_equal.
    change (without key Z.eqb cols l) with (SortedProofs2.pdiff Z.eqb key l cols). lia.
  - injection E as <- <-. exists a. unfold onew, sp_empty. cbn [rows].
    rewrite (@read_contains P Z W fst snd chk true tw true Z.ltb Z.eqb zo a A l k B col H I). cbn [bind]. rewrite Sk. auto.
  - destruct (nth_error l j) as [y|] eqn:Ny; [|discriminate]. injection E as <- <-. exists a. unfold onew, column. cbn [rows].
    rewrite (@read_at P Z W fst snd chk true tw true a A l k B j y H Ny). cbn [bind]. rewrite Sk. auto.
  - destruct (nth_error l j) as [y|] eqn:Ny; [|discriminate]. injection E as <- <-. exists a. unfold onew.
    rewrite (read_entry _ _ _ _ _ H Ny). cbn [bind]. rewrite Sk. auto.
  - injection E as <- <-. exists a. unfold onew, numNonZeros. cbn [rows]. rewrite (SetsProofs.row_size chk Ia). cbn [bind]. rewrite Sk. auto.
  - injection E as <- <-. destruct (@CRSProofs3.set_row_any W chk tw w a A (l, k) B H) as (a' & Ea & H').
    exists a'. unfold oret. rewrite Ea. cbn [bind]. rewrite map_length, Sk. split; auto.
Qed.
Theorem matrices_top a L ths M' rs : aok a L -> Forall (fun x => pincr (fst x)) L -> separate ths ->
  calls_run m_next (map (@wid P) L) (concat ths) (map fst L) = Some (M', rs) ->
  exists a' rss L', rs = concat rss /\ f_calls (f_mcall chk nc tw) (concat ths) a = Ok (a', rs) /\
    aok a' L' /\ Forall (fun x => pincr (fst x)) L' /\ map fst L' = M' /\ map (@wid P) L' = map (@wid P) L /\
    exists steps, forall sched, exists h' ths', exec (@access Z W (list (answer (Z + W)))) sched (heap_of a) (map (p_calls (p_mcall chk tw) (numArrays a)) ths) = Ok (h', ths') /\ no_race ths' /\
      (fair (length ths) steps sched -> done ths') /\
      (done ths' -> ths' = map Ret rss /\ forall b i, h' b i = heap_of a' b i).
Proof.
  intros H G S E. destruct (@rows_top P Z W fst snd true tw true (mcall W) (answer (Z + W)) (p_mcall chk tw) (f_mcall chk nc tw) m_next (fun l => pincr l)
    matrices_sim matrices_ok matrices_good matrices_fit a L ths M' rs H) as (a' & rss & L' & H1 & H2 & H3 & H3' & H4 & H5 & H6); auto.
  exists a', rss, L'. auto 10.
Qed.
End Matrices.
