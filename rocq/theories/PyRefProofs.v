(** Proofs about PyRef.v: the books balance. *)
From Coq Require Import List Arith Lia Bool.
From Verif Require Import Base BaseProofs PyRef PyRefSpec.
Import ListNotations.
Set Implicit Arguments.
Unset Strict Implicit.

Arguments occ : simpl never.
Arguments held : simpl never.
Lemma occ_app a b o : occ (a ++ b) o = occ a o + occ b o.
Proof. apply count_occ_app. Qed.
Lemma occ_cons a b o : occ (a :: b) o = (if Nat.eq_dec a o then 1 else 0) + occ b o.
Proof. unfold occ. simpl. destruct (Nat.eq_dec a o); lia. Qed.
Lemma occ_nil o : occ [] o = 0. Proof. reflexivity. Qed.
Lemma occ_in l o : 0 < occ l o <-> In o l.
Proof. unfold occ. pose proof (count_occ_In Nat.eq_dec l o). unfold gt in *. tauto. Qed.
Lemma take_one_occ o l r : take_one o l = Some r -> forall x, occ l x = (if Nat.eq_dec o x then 1 else 0) + occ r x.
Proof.
  revert r. induction l as [|a l IH]; simpl; intros r H x; [discriminate|]. rewrite occ_cons.
  destruct (a =? o) eqn:E.
  - apply Nat.eqb_eq in E. injection H as <-. subst. reflexivity.
  - destruct (take_one o l) as [r'|] eqn:T; [|discriminate]. injection H as <-. rewrite occ_cons, (IH _ eq_refl x). lia.
Qed.
Lemma take_list_occ os l r : take_list os l = Some r -> forall x, occ l x = occ os x + occ r x.
Proof.
  revert l. induction os as [|o os IH]; simpl; intros l H x; [injection H as ->; reflexivity|].
  destruct (take_one o l) as [l'|] eqn:T; [|discriminate]. rewrite (take_one_occ T x), occ_cons, (IH _ H x). lia.
Qed.

Lemma count_upd h o x p : o < length h -> count (upd h o x) p = if Nat.eq_dec o p then cnt x else count h p.
Proof.
  intros L. unfold count. destruct (Nat.eq_dec o p) as [<-|N].
  - rewrite nth_error_upd_eq by exact L. reflexivity.
  - rewrite nth_error_upd_ne by exact N. reflexivity.
Qed.
Lemma inner_upd h o x y p : nth_error h o = Some x ->
  occ (inner (upd h o y)) p + occ (items x) p = occ (inner h) p + occ (items y) p.
Proof.
  revert o. induction h as [|a h IH]; intros [|o] H; simpl in *; try discriminate.
  - injection H as ->. unfold inner. simpl. rewrite !occ_app. lia.
  - unfold inner in *. simpl. rewrite !occ_app. specialize (IH _ H). lia.
Qed.
Lemma total_upd h o x y : nth_error h o = Some x -> total (upd h o y) + cnt x = total h + cnt y.
Proof.
  revert o. unfold total. induction h as [|a h IH]; intros [|o] H; simpl in *; try discriminate.
  - injection H as ->. lia.
  - specialize (IH _ H). lia.
Qed.
Lemma count_pos h o : 0 < count h o -> exists x, nth_error h o = Some x /\ cnt x = count h o /\ o < length h.
Proof.
  unfold count. destruct (nth_error h o) as [x|] eqn:E; [|lia]. intros _. exists x. split; [reflexivity|]. split; [reflexivity|].
  apply nth_error_Some. rewrite E. discriminate.
Qed.

Lemma books_perm h a b : (forall o, occ a o = occ b o) -> books h a -> books h b.
Proof. intros P B o. rewrite (B o), (P o). reflexivity. Qed.

(** Giving up references which are on the books *)
Lemma drop_ok fuel : forall h todo l, total h < fuel -> books h (todo ++ l) ->
  exists h', drop fuel h todo = Ok h' /\ books h' l /\ length h' = length h.
Proof.
  induction fuel as [|f IH]; intros h todo l F B; [lia|].
  destruct todo as [|o rest]; simpl; [eauto|].
  pose proof (B o) as Bo. simpl app in Bo. rewrite occ_cons in Bo. destruct (Nat.eq_dec o o) as [_|N]; [|congruence].
  destruct (@count_pos h o) as (x & E & C & L); [lia|]. unfold aget. rewrite E. cbn [bind].
  destruct (cnt x) as [|[|n]] eqn:Cx; [lia| |].
  - destruct (IH (upd h o (mkO 0 [])) (items x ++ rest) l) as (h' & D & B' & L').
    + pose proof (@total_upd h o x (mkO 0 []) E). simpl in *. lia.
    + intros p. rewrite count_upd by exact L. specialize (B p). simpl app in B. rewrite occ_cons in B.
      pose proof (@inner_upd h o x (mkO 0 []) p E) as I. cbn [items] in I. rewrite occ_nil in I. rewrite !occ_app in *.
      destruct (Nat.eq_dec o p); cbn [cnt]; subst; lia.
    + exists h'. split; [exact D|]. split; [exact B'|]. rewrite L'. apply upd_length.
  - destruct (IH (upd h o (mkO (S n) (items x))) rest l) as (h' & D & B' & L').
    + pose proof (@total_upd h o x (mkO (S n) (items x)) E). simpl in *. lia.
    + intros p. rewrite count_upd by exact L. specialize (B p). simpl app in B. rewrite occ_cons in B.
      pose proof (@inner_upd h o x (mkO (S n) (items x)) p E) as I. cbn [items] in I.
      destruct (Nat.eq_dec o p); cbn [cnt]; subst; lia.
    + exists h'. split; [exact D|]. split; [exact B'|]. rewrite L'. apply upd_length.
Qed.
Lemma decref_ok h o l : books h (o :: l) -> oks (decref h o) (fun h' => books h' l /\ length h' = length h).
Proof.
  intros B. destruct (@drop_ok (total h + 1) h [o] l) as (h' & D & R); [lia|exact B|]. exists h'. exact (conj D R).
Qed.
Lemma xdecref_ok h p l : books h (of_ptr p ++ l) -> oks (xdecref h p) (fun h' => books h' l /\ length h' = length h).
Proof. destruct p as [o|]; simpl; intros B; [apply decref_ok; exact B|]. apply oks_ok. auto. Qed.
Lemma incref_ok h o l : books h l -> 0 < count h o -> oks (incref h o) (fun h' => books h' (o :: l) /\ length h' = length h).
Proof.
  intros B P. destruct (count_pos P) as (x & E & C & L). unfold incref, aget. rewrite E. cbn [bind].
  destruct (cnt x =? 0) eqn:Z; [apply Nat.eqb_eq in Z; lia|]. apply oks_ok. split; [|apply upd_length].
  intros p. rewrite count_upd by exact L. specialize (B p). rewrite occ_cons. pose proof (@inner_upd h o x (mkO (cnt x + 1) (items x)) p E) as I.
  cbn [items] in I. destruct (Nat.eq_dec o p); cbn [cnt]; subst; lia.
Qed.
Lemma books_count h l o : books h l -> In o l -> 0 < count h o.
Proof. intros B I. rewrite (B o). apply occ_in in I. lia. Qed.
Lemma xincref_ok h p l : books h l -> (forall o, p = Some o -> 0 < count h o) ->
  oks (xincref h p) (fun h' => books h' (of_ptr p ++ l) /\ length h' = length h).
Proof. destruct p as [o|]; simpl; intros B P; [apply incref_ok; auto|]. apply oks_ok. auto. Qed.
Lemma count_over h o : length h <= o -> count h o = 0.
Proof. intros L. unfold count. apply nth_error_None in L. rewrite L. reflexivity. Qed.
Lemma fresh_ok h k l : books h (k ++ l) -> books (fst (fresh h k)) (length h :: l).
Proof.
  intros B p. specialize (B p). unfold fresh. cbn [fst]. rewrite occ_cons. unfold inner. rewrite flat_map_app. simpl. rewrite app_nil_r.
  rewrite occ_app in *. fold (inner h). unfold count in *. destruct (Nat.eq_dec (length h) p) as [<-|N].
  - rewrite nth_error_app2, Nat.sub_diag by lia. simpl. assert (nth_error h (length h) = None) as E by (apply nth_error_None; lia). rewrite E in B. lia.
  - destruct (Nat.lt_ge_cases p (length h)).
    + rewrite nth_error_app1 by lia. lia.
    + assert (nth_error h p = None) as E by (apply nth_error_None; lia). rewrite E in B.
      assert (nth_error (h ++ [mkO 1 k]) p = None) as E2 by (apply nth_error_None; rewrite app_length; simpl; lia). rewrite E2. lia.
Qed.
Lemma fresh_length h k : length (fst (fresh h k)) = length h + 1.
Proof. simpl. rewrite app_length. reflexivity. Qed.
Lemma steal_ok h c o l : books h (o :: l) -> 0 < count h c -> oks (steal h c o) (fun h' => books h' l /\ length h' = length h /\ forall p, count h' p = count h p).
Proof.
  intros B P. destruct (count_pos P) as (x & E & C & L). unfold steal, aget. rewrite E. cbn [bind].
  destruct (cnt x =? 0) eqn:Z; [apply Nat.eqb_eq in Z; lia|]. apply oks_ok. split; [|split; [apply upd_length|]].
  - intros p. rewrite count_upd by exact L. specialize (B p). rewrite occ_cons in B.
    pose proof (@inner_upd h c x (mkO (cnt x) (items x ++ [o])) p E) as I. cbn [items] in I. rewrite occ_app, occ_cons, occ_nil in I.
    destruct (Nat.eq_dec c p); cbn [cnt]; subst; lia.
  - intros p. rewrite count_upd by exact L. destruct (Nat.eq_dec c p); subst; cbn [cnt]; congruence.
Qed.

(** * Programs *)
Lemma held_upd vars v x y o : nth_error vars v = Some x ->
  occ (held (upd vars v y)) o + occ (held [x]) o = occ (held vars) o + occ (held [y]) o.
Proof.
  revert v. induction vars as [|a vars IH]; intros [|v] H; simpl in *; try discriminate.
  - injection H as ->. unfold held. simpl. rewrite !app_nil_r, !occ_app. lia.
  - unfold held in *. simpl in *. rewrite !occ_app in *. specialize (IH _ H). lia.
Qed.
Lemma held_app a b : held (a ++ b) = held a ++ held b.
Proof. apply flat_map_app. Qed.
Lemma held_one p : held [Some p] = of_ptr p.
Proof. unfold held. simpl. apply app_nil_r. Qed.

Definition matches (s : pstate) (w : owners) : Prop :=
  p_vars s = w_vars w /\ length (p_heap s) = w_made w /\ books (p_heap s) (all_owners w).

Lemma var_get w s v p : p_vars s = w_vars w -> var_of w v = Some p -> getv s v = Ok p /\ nth_error (w_vars w) v = Some (Some p).
Proof.
  unfold var_of, getv, aget. intros ->. destruct (nth_error (w_vars w) v) as [[q|]|]; try discriminate. intros H. injection H as ->. auto.
Qed.
Lemma give_occ w p w' : give w p = Some w' ->
  w_vars w' = w_vars w /\ w_lost w' = w_lost w /\ w_made w' = w_made w /\ forall o, occ (w_raw w) o = occ (of_ptr p) o + occ (w_raw w') o.
Proof.
  destruct p as [x|]; simpl.
  - destruct (take_one x (w_raw w)) as [r|] eqn:T; [|discriminate]. intros H. injection H as <-. simpl. repeat split; auto.
    intros o. rewrite (take_one_occ T o), occ_cons, occ_nil. lia.
  - intros H. injection H as <-. auto.
Qed.
Ltac occs := unfold all_owners, with_var, add_var, with_raw, lose in *; cbn [w_vars w_raw w_lost w_made] in *;
  rewrite ?held_app, ?held_one in *; rewrite ?occ_app, ?occ_cons, ?occ_nil in *.
Lemma upd_len_var {A} (l : list A) v x y : nth_error l v = Some x -> v < length (upd l v y).
Proof. intros E. rewrite upd_length. apply nth_error_Some. rewrite E. discriminate. Qed.

Lemma copy_assign_ok s w v x old p : matches s w -> var_of w v = Some old -> var_of w x = Some p ->
  oks (copy_assign s v x) (fun s' => matches s' (with_var (lose w old) v p)).
Proof.
  intros (Ev & El & B) Hv Hx. destruct (var_get Ev Hv) as [Gv Nv]. destruct (var_get Ev Hx) as [Gx Nx].
  unfold copy_assign. rewrite Gv. cbn [bind]. rewrite Gx. cbn [bind].
  destruct (@xincref_ok (p_heap s) p (all_owners w) B) as (h & -> & Bh & Lh).
  { intros o ->. apply (books_count B). unfold all_owners. apply in_or_app. left. unfold held. apply in_flat_map.
    exists (Some (Some o)). split; [exact (nth_error_In _ _ Nx)|left; reflexivity]. }
  cbn [bind]. apply oks_ok. split; [cbn; rewrite Ev; reflexivity|]. split; [cbn; congruence|]. cbn.
  eapply books_perm; [|exact Bh]. intros o. occs. pose proof (@held_upd _ v _ (Some p) o Nv) as H. rewrite !held_one in H. lia.
Qed.
Lemma move_assign_ok s w v x old p : matches s w -> var_of w v = Some old -> var_of w x = Some p ->
  oks (move_assign s v x) (fun s' => matches s' (with_var (with_var (lose w old) v p) x None)).
Proof.
  intros (Ev & El & B) Hv Hx. destruct (var_get Ev Hv) as [Gv Nv]. destruct (var_get Ev Hx) as [Gx Nx].
  unfold move_assign. rewrite Gv. cbn [bind]. rewrite Gx. cbn [bind]. apply oks_ok.
  split; [cbn; rewrite Ev; reflexivity|]. split; [exact El|]. cbn.
  eapply books_perm; [|exact B]. intros o. occs. pose proof (@held_upd _ v _ (Some p) o Nv) as H. rewrite !held_one in H.
  assert (N2 : nth_error (upd (w_vars w) v (Some p)) x = Some (Some p)).
  { destruct (Nat.eq_dec v x) as [<-|N]; [apply nth_error_upd_eq; apply nth_error_Some; congruence|rewrite nth_error_upd_ne by exact N; exact Nx]. }
  pose proof (@held_upd _ x _ (Some None) o N2) as H2. rewrite !held_one in H2. cbn [of_ptr] in H2. rewrite occ_nil in H2. unfold ptr in *. lia.
Qed.
Lemma add_none s w : matches s w -> matches (push s None) (add_var w None).
Proof.
  intros (Ev & El & B). split; [cbn; rewrite Ev; reflexivity|]. split; [exact El|]. eapply books_perm; [|exact B]. intros o. occs. simpl. lia.
Qed.
Lemma var_add w v p q : var_of w v = Some p -> var_of (add_var w q) v = Some p.
Proof.
  unfold var_of, add_var. cbn. destruct (nth_error (w_vars w) v) eqn:E; [|discriminate]. rewrite nth_error_app1; [rewrite E; auto|].
  apply nth_error_Some. congruence.
Qed.
Lemma var_new w q : var_of (add_var w q) (length (w_vars w)) = Some q.
Proof. unfold var_of, add_var. cbn. rewrite nth_error_app2, Nat.sub_diag by lia. reflexivity. Qed.
Lemma upd_snoc {A} (l : list A) x y : upd (l ++ [x]) (length l) y = l ++ [y].
Proof. induction l; simpl; congruence. Qed.
Lemma upd_app1 {A} (l : list A) k v y : v < length l -> upd (l ++ k) v y = upd l v y ++ k.
Proof. revert v. induction l as [|a l IH]; intros [|v] H; simpl in *; try lia; auto. rewrite IH by lia. reflexivity. Qed.

Lemma rstep_ok c s w w' : matches s w -> wstep c w = Some w' -> oks (rstep c s) (fun s' => matches s' w').
Proof.
  intros M H. pose proof M as (Ev & El & B). destruct c; simpl in H; cbn [rstep].
  - injection H as <-. apply oks_ok. apply add_none. exact M.
  - destruct (give w p) as [w1|] eqn:G; [|discriminate]. injection H as <-. destruct (give_occ G) as (A1 & A2 & A3 & A4). apply oks_ok.
    split; [cbn; rewrite Ev, A1; reflexivity|]. split; [cbn; congruence|]. eapply books_perm; [|exact B]. intros o. occs. rewrite A1, A2, A4. lia.
  - destruct (var_of w w0) as [p|] eqn:V; [|discriminate]. injection H as <-. rewrite Ev.
    pose proof (@copy_assign_ok _ _ _ _ _ _ (add_none M) (var_new w None) (@var_add _ _ _ None V)) as R.
    eapply oks_mono; [exact R|]. intros s' (M1 & M2 & M3). split; [rewrite M1; cbn; apply upd_snoc|]. split; [exact M2|].
    eapply books_perm; [|exact M3]. intros o. occs. rewrite upd_snoc. occs. simpl. lia.
  - destruct (var_of w w0) as [p|] eqn:V; [|discriminate]. injection H as <-. rewrite Ev.
    pose proof (@move_assign_ok _ _ _ _ _ _ (add_none M) (var_new w None) (@var_add _ _ _ None V)) as R.
    assert (L : w0 < length (w_vars w)). { unfold var_of in V. apply nth_error_Some. intros E. rewrite E in V. discriminate. }
    eapply oks_mono; [exact R|]. intros s' (M1 & M2 & M3).
    assert (E : w_vars (with_var (with_var (lose (add_var w None) None) (length (w_vars w)) p) w0 None) = w_vars (add_var (with_var w w0 None) p)).
    { cbn. rewrite upd_snoc. apply upd_app1. exact L. }
    split; [rewrite M1; exact E|]. split; [exact M2|]. eapply books_perm; [|exact M3]. intros o. unfold all_owners. rewrite E. reflexivity.
  - destruct (var_of w v) as [old|] eqn:V; [|discriminate]. destruct (var_of w w0) as [p|] eqn:X; [|discriminate]. injection H as <-.
    eapply copy_assign_ok; eauto.
  - destruct (var_of w v) as [old|] eqn:V; [|discriminate]. destruct (var_of w w0) as [p|] eqn:X; [|discriminate]. injection H as <-.
    eapply move_assign_ok; eauto.
  - destruct (var_of w v) as [old|] eqn:V; [|discriminate]. destruct (give w p) as [w1|] eqn:G; [|discriminate]. injection H as <-.
    destruct (give_occ G) as (A1 & A2 & A3 & A4). destruct (var_get Ev V) as [Gv Nv]. unfold ptr_assign. rewrite Gv. cbn [bind].
    destruct (@xdecref_ok (p_heap s) old (all_owners (with_var w1 v p))) as (h & -> & Bh & Lh).
    { eapply books_perm; [|exact B]. intros o. occs. rewrite A1, A2, A4. pose proof (@held_upd _ v _ (Some p) o Nv) as Hh. rewrite !held_one in Hh. lia. }
    cbn [bind]. apply oks_ok. split; [cbn; rewrite Ev, A1; reflexivity|]. split; [cbn; congruence|exact Bh].
  - destruct (var_of w v) as [p|] eqn:V; [|discriminate]. injection H as <-. destruct (var_get Ev V) as [Gv Nv]. rewrite Gv. cbn [bind]. apply oks_ok.
    split; [cbn; rewrite Ev; reflexivity|]. split; [exact El|]. eapply books_perm; [|exact B]. intros o. occs.
    pose proof (@held_upd _ v _ (Some None) o Nv) as Hh. rewrite !held_one in Hh. rewrite occ_nil in Hh. unfold ptr in *. lia.
  - destruct (var_of w v) as [p|] eqn:V; [|discriminate]. injection H as <-. destruct (var_get Ev V) as [Gv Nv]. unfold destroy. rewrite Gv. cbn [bind].
    destruct (@xdecref_ok (p_heap s) p (all_owners (mkW (upd (w_vars w) v None) (w_raw w) (w_lost w) (w_made w)))) as (h & -> & Bh & Lh).
    { eapply books_perm; [|exact B]. intros o. occs. pose proof (@held_upd _ v _ None o Nv) as Hh. rewrite !held_one in Hh. simpl in Hh. rewrite occ_nil in Hh. unfold ptr in *. lia. }
    cbn [bind]. unfold aset. rewrite Ev. replace (v <? length (w_vars w)) with true by (symmetry; apply Nat.ltb_lt; apply nth_error_Some; congruence).
    cbn [bind]. apply oks_ok. split; [reflexivity|]. split; [cbn; congruence|exact Bh].
  - destruct p as [o|].
    + destruct (existsb (Nat.eqb o) (all_owners w)) eqn:E; [|discriminate]. injection H as <-.
      apply existsb_exists in E. destruct E as (y & Iy & Ey). apply Nat.eqb_eq in Ey. subst y.
      destruct (@xincref_ok (p_heap s) (Some o) _ B) as (h & -> & Bh & Lh); [intros o' Q; injection Q as <-; exact (books_count B Iy)|].
      cbn [bind]. apply oks_ok. split; [exact Ev|]. split; [cbn; congruence|]. eapply books_perm; [|exact Bh]. intros q. cbn [of_ptr]. occs. lia.
    + injection H as <-. simpl. apply oks_ok. destruct s. exact M.
  - destruct (give_occ H) as (A1 & A2 & A3 & A4).
    destruct (@xdecref_ok (p_heap s) p (all_owners w')) as (h & -> & Bh & Lh).
    { eapply books_perm; [|exact B]. intros o. occs. rewrite A1, A2, A4. lia. }
    cbn [bind]. apply oks_ok. split; [cbn; congruence|]. split; [cbn; congruence|exact Bh].
  - destruct (take_list l (w_raw w)) as [raw|] eqn:T; [|discriminate]. injection H as <-. apply oks_ok.
    split; [exact Ev|]. split; [cbn [p_heap]; rewrite fresh_length, El; reflexivity|].
    assert (B1 : books (p_heap s) (l ++ held (w_vars w) ++ raw ++ w_lost w)).
    { eapply books_perm; [|exact B]. intros o. occs. rewrite (take_list_occ T o). lia. }
    pose proof (fresh_ok B1) as B2. cbn [p_heap]. eapply books_perm; [|exact B2]. intros o. rewrite El. occs. rewrite ?occ_app. lia.
Qed.
Lemma rrun_ok prog : forall s w w', matches s w -> wrun prog w = Some w' -> oks (rrun prog s) (fun s' => matches s' w').
Proof.
  induction prog as [|c prog IH]; simpl; intros s w w' M H.
  - injection H as <-. apply oks_ok. exact M.
  - destruct (wstep c w) as [w1|] eqn:E; [|discriminate]. destruct (rstep_ok M E) as (s1 & -> & M1). cbn [bind]. exact (IH _ _ _ M1 H).
Qed.
Definition start : pstate := mkP [] [].
Definition nobody : owners := mkW [] [] [] 0.
Lemma start_ok : matches start nobody.
Proof. split; [reflexivity|]. split; [reflexivity|]. intros o. unfold count. destruct o; reflexivity. Qed.

(** * Functions *)
Definition some_list (ps : list ptr) : list nat := flat_map of_ptr ps.
Lemma some_map l : some_list (map Some l) = l.
Proof. induction l; simpl; congruence. Qed.
Lemma some_nones {A} (l : list A) : some_list (map (fun _ => None) l) = [].
Proof. induction l; simpl; auto. Qed.
Lemma destroy_all_ok ps : forall h l, books h (some_list ps ++ l) -> oks (destroy_all h ps) (fun h' => books h' l).
Proof.
  induction ps as [|p ps IH]; simpl; intros h l B; [apply oks_ok; exact B|].
  eapply oks_bind; [apply (IH h (of_ptr p ++ l))|].
  - eapply books_perm; [|exact B]. intros o. unfold some_list. simpl. rewrite !occ_app. lia.
  - intros h' B'. eapply oks_mono; [apply (@xdecref_ok h' p l B')|]. intros h2 [B2 _]. exact B2.
Qed.
Lemma set_items_ok t args : forall h l, books h (args ++ l) -> In t l -> oks (set_items h t args) (fun h' => books h' l).
Proof.
  induction args as [|a args IH]; simpl; intros h l B I; [apply oks_ok; exact B|].
  eapply oks_bind; [apply (@steal_ok h t a (args ++ l) B)|].
  - apply (books_count B). right. apply in_or_app. right. exact I.
  - intros h' (B' & _). apply IH; assumption.
Qed.
Lemma callPyFunc_ok h args l t c : books h (args ++ l) ->
  oks (callPyFunc h args t c) (fun r => books (fst r) (some_list (snd r) ++ l)).
Proof.
  intros B. unfold callPyFunc. destruct t.
  - destruct (fresh h []) as [h1 tup] eqn:F. pose proof (@fresh_ok h [] (args ++ l) B) as B1. rewrite F in B1. cbn [fst] in B1.
    assert (E : tup = length h) by (unfold fresh in F; injection F as _ <-; reflexivity). rewrite <- E in B1.
    eapply oks_bind; [apply (@set_items_ok tup args h1 (tup :: l))|].
    + eapply books_perm; [|exact B1]. intros o. rewrite ?occ_cons, ?occ_app, ?occ_cons. lia.
    + left; reflexivity.
    + intros h2 B2. eapply oks_bind with (P := fun h3 => books h3 (tup :: l)).
      * destruct c; [|apply oks_ok; exact B2]. destruct (fresh h2 []) as [h3 r] eqn:F2. pose proof (@fresh_ok h2 [] (tup :: l) B2) as B3.
        rewrite F2 in B3. cbn [fst] in B3. assert (E2 : r = length h2) by (unfold fresh in F2; injection F2 as _ <-; reflexivity). rewrite <- E2 in B3.
        eapply oks_mono; [apply (@xdecref_ok h3 (Some r) (tup :: l) B3)|]. intros ? [? _]; assumption.
      * intros h3 B3. eapply oks_bind; [apply (@xdecref_ok h3 (Some tup) l B3)|]. intros h4 [B4 _]. apply oks_ok. cbn [fst snd]. rewrite some_nones. exact B4.
  - apply oks_ok. cbn [fst snd]. rewrite some_map. exact B.
Qed.
Lemma make_args_ok ok : forall h l, books h l -> books (fst (make_args h ok)) (some_list (snd (make_args h ok)) ++ l).
Proof.
  induction ok as [|b ok IH]; simpl; intros h l B; [exact B|]. destruct b; cbn [fresh fst snd].
  - pose proof (@fresh_ok h [] l B) as B1. cbn [fresh fst] in B1. specialize (IH _ _ B1). destruct (make_args (h ++ [mkO 1 []]) ok) as [h2 ps].
    cbn [fst snd] in *. eapply books_perm; [|exact IH]. intros o. unfold some_list. simpl. rewrite ?occ_app, ?occ_cons, ?occ_app. lia.
  - specialize (IH _ _ B). destruct (make_args h ok) as [h2 ps]. exact IH.
Qed.
Lemma all_some_list ps l : all_some ps = Some l -> some_list ps = l.
Proof.
  revert l. induction ps as [|[o|] ps IH]; simpl; intros l H; try discriminate; [injection H as <-; reflexivity|].
  destruct (all_some ps) as [l'|]; [|discriminate]. injection H as <-. unfold some_list in *. simpl. rewrite (IH _ eq_refl). reflexivity.
Qed.
Lemma call_function_ok h l ok t c : books h l ->
  oks (call_function h ok t c) (fun r => books (fst r) l /\ snd r = forallb (fun b => b) ok).
Proof.
  intros B. unfold call_function. pose proof (@make_args_ok ok h l B) as B1. 
  assert (S : forall h, match all_some (snd (make_args h ok)) with Some _ => true | None => false end = forallb (fun b => b) ok).
  { clear. induction ok as [|b ok IH]; intros h; simpl; [reflexivity|]. destruct b; cbn [fresh].
    - specialize (IH (h ++ [mkO 1 []])). destruct (make_args (h ++ [mkO 1 []]) ok) as [h2 ps]. cbn [snd] in *. simpl. destruct (all_some ps); exact IH.
    - destruct (make_args h ok) as [h2 ps]. reflexivity. }
  specialize (S h). destruct (make_args h ok) as [h1 args]. cbn [fst snd] in *. destruct (all_some args) as [k|] eqn:A.
  - rewrite (all_some_list A) in B1. eapply oks_bind; [apply (@callPyFunc_ok h1 k l t c B1)|]. intros [h2 rest] B2. cbn [fst snd] in *.
    eapply oks_bind; [apply (@destroy_all_ok rest h2 l B2)|]. intros h3 B3. apply oks_ok. split; [exact B3|exact S].
  - eapply oks_bind; [apply (@destroy_all_ok args h1 l B1)|]. intros h2 B2. apply oks_ok. split; [exact B2|exact S].
Qed.

Lemma addType_ok h l m t b : books h l -> In m l -> 0 < count h t -> oks (addTypeToModule h m t b) (fun h' => books h' l).
Proof.
  intros B I P. unfold addTypeToModule. eapply oks_bind; [apply (@incref_ok h t l B P)|]. intros h1 [B1 L1]. destruct b.
  - eapply oks_mono; [apply (@steal_ok h1 m t l B1)|intros ? (? & _); assumption]. apply (books_count B1). right. exact I.
  - eapply oks_mono; [apply (@decref_ok h1 t l B1)|intros ? (? & _); assumption].
Qed.
Lemma incref_count h o h' : incref h o = Ok h' -> forall x, count h' x = count h x + (if Nat.eq_dec o x then 1 else 0).
Proof.
  unfold incref, aget. destruct (nth_error h o) as [x|] eqn:E; [|discriminate]. cbn [bind]. destruct (cnt x =? 0); [discriminate|].
  intros H y. injection H as <-. rewrite count_upd by (apply nth_error_Some; congruence). unfold count. destruct (Nat.eq_dec o y) as [<-|]; [rewrite E; reflexivity|lia].
Qed.
(** A decrement which leaves the count positive *)
Lemma decref_simple h o : 2 <= count h o ->
  oks (decref h o) (fun h' => (forall x, count h' x + (if Nat.eq_dec o x then 1 else 0) = count h x) /\ forall x, occ (inner h') x = occ (inner h) x).
Proof.
  intros K. destruct (@count_pos h o) as (x & E & C & Lx); [lia|]. unfold decref. rewrite Nat.add_1_r. simpl. unfold aget. rewrite E. cbn [bind].
  destruct (cnt x) as [|[|n]] eqn:Cx; try lia.
  assert (D : forall f, drop f (upd h o (mkO (S n) (items x))) [] = Ok (upd h o (mkO (S n) (items x)))) by (intros [|f]; reflexivity). rewrite D.
  apply oks_ok. split; intros y.
  - rewrite count_upd by exact Lx. destruct (Nat.eq_dec o y); cbn [cnt]; subst; lia.
  - pose proof (@inner_upd h o x (mkO (S n) (items x)) y E) as I. cbn [items] in I. lia.
Qed.
Lemma addModule_short h l m o : books h l -> In m l -> 0 < count h o ->
  oks (addPyLvArrayModule h m o true) (fun h' => forall x, count h' x + (if Nat.eq_dec o x then 1 else 0) = occ l x + occ (inner h') x).
Proof.
  intros B I P. unfold addPyLvArrayModule. destruct (@incref_ok h o l B P) as (h1 & E1 & B1 & L1). rewrite E1. cbn [bind].
  destruct (@steal_ok h1 m o l B1) as (h2 & E2 & B2 & L2 & C2). { apply (books_count B1). right. exact I. }
  rewrite E2. cbn [bind xdecref]. destruct (@decref_simple h2 o) as (h3 & -> & C3 & I3).
  { rewrite C2, (incref_count E1). destruct (Nat.eq_dec o o); [lia|congruence]. }
  apply oks_ok. intros x. rewrite C3, I3. apply B2.
Qed.
Lemma addModule_fails h l m o : books h l -> 0 < count h o -> oks (addPyLvArrayModule h m o false) (fun h' => books h' l).
Proof.
  intros B P. unfold addPyLvArrayModule. destruct (@incref_ok h o l B P) as (h1 & -> & B1 & L1). cbn [bind].
  eapply oks_mono; [apply (@xdecref_ok h1 (Some o) l B1)|intros ? (? & _); assumption].
Qed.

Lemma toSciPy_ok h l m c : books h l -> 0 < count h m -> 0 < count h c ->
  oks (toSciPy h m c) (fun r => books (fst r) (snd r :: length h :: S (length h) :: S (S (length h)) :: l)).
Proof.
  intros B Pm Pc. unfold toSciPy. cbn [fresh fst snd].
  pose proof (@fresh_ok h [] l B) as B1. cbn [fresh fst] in B1. set (h1 := h ++ [mkO 1 []]) in *.
  pose proof (@fresh_ok h1 [] _ B1) as B2. cbn [fresh fst] in B2. set (h2 := h1 ++ [mkO 1 []]) in *.
  pose proof (@fresh_ok h2 [] _ B2) as B3. cbn [fresh fst] in B3. set (h3 := h2 ++ [mkO 1 []]) in *.
  assert (L1 : length h1 = S (length h)) by (unfold h1; rewrite app_length; simpl; lia).
  assert (L2 : length h2 = S (S (length h))) by (unfold h2; rewrite app_length; simpl; lia).
  assert (L3 : length h3 = S (S (S (length h)))) by (unfold h3; rewrite app_length; simpl; lia).
  assert (Keep : forall x, 0 < count h x -> 0 < count h3 x).
  { intros x Px. destruct (count_pos Px) as (y & E & C & L). unfold count, h3, h2, h1. rewrite !nth_error_app1 by (rewrite ?app_length; lia). rewrite E. lia. }
  rewrite L1, L2 in *. set (l3 := S (S (length h)) :: S (length h) :: length h :: l) in *.
  destruct (@incref_ok h3 m l3 B3 (Keep _ Pm)) as (h4 & E4 & B4 & L4). rewrite E4. cbn [bind].
  destruct (@incref_ok h4 c _ B4) as (h5 & -> & B5 & L5). { rewrite (incref_count E4). specialize (Keep _ Pc). lia. } cbn [bind].
  destruct (@incref_ok h5 (length h) _ B5) as (h6 & -> & B6 & L6). { apply (books_count B5). unfold l3. simpl. auto 10. } cbn [bind].
  destruct (@incref_ok h6 (S (length h)) _ B6) as (h7 & -> & B7 & L7). { apply (books_count B6). unfold l3. simpl. auto 10. } cbn [bind].
  destruct (@incref_ok h7 (S (S (length h))) _ B7) as (h8 & -> & B8 & L8). { apply (books_count B7). unfold l3. simpl. auto 10. } cbn [bind].
  assert (B8' : books h8 ([length h; S (length h); S (S (length h))] ++ c :: m :: l3)).
  { eapply books_perm; [|exact B8]. intros o. simpl app. rewrite !occ_cons. lia. }
  pose proof (fresh_ok B8') as B9. cbn [fresh fst] in B9. set (h9 := h8 ++ [mkO 1 [length h; S (length h); S (S (length h))]]) in *.
  destruct (@xdecref_ok h9 (Some c) (length h8 :: m :: l3)) as (h10 & E10 & B10 & L10).
  { eapply books_perm; [|exact B9]. intros o. simpl app. rewrite !occ_cons. lia. }
  cbn [xdecref] in *. rewrite E10. cbn [bind].
  destruct (@xdecref_ok h10 (Some m) (length h8 :: l3)) as (h11 & E11 & B11 & L11).
  { eapply books_perm; [|exact B10]. intros o. simpl app. rewrite !occ_cons. lia. }
  cbn [xdecref] in *. rewrite E11. cbn [bind]. apply oks_ok. cbn [fst snd]. eapply books_perm; [|exact B11]. intros o. unfold l3. rewrite !occ_cons. lia.
Qed.
Lemma create_ok h l d b : books h l -> 0 < count h d ->
  oks (create_wrapper h d b) (fun r => books (fst r) (length h :: l) /\ snd r = if b then Some (length h) else None).
Proof.
  intros B P. unfold create_wrapper. cbn [fresh]. pose proof (@fresh_ok h [] l B) as B1. cbn [fresh fst] in B1. set (h1 := h ++ [mkO 1 []]) in *. destruct b.
  - assert (P1 : 0 < count h1 d).
    { destruct (count_pos P) as (y & E & C & L). unfold count, h1. rewrite nth_error_app1 by exact L. rewrite E. lia. }
    destruct (@incref_ok h1 d _ B1 P1) as (h2 & -> & B2 & L2). cbn [bind].
    destruct (@steal_ok h2 (length h) d _ B2) as (h3 & -> & B3 & L3 & C3). { apply (books_count B2). simpl. auto. }
    cbn [bind]. apply oks_ok. split; [exact B3|reflexivity].
  - apply oks_ok. split; [exact B1|reflexivity].
Qed.

(** * The loop of createCupyArrayImpl *)
Definition dead : pyobj := mkO 0 [].
Lemma aget_past (b t : heap) i : aget (b ++ t) (length b + i) = aget t i.
Proof. unfold aget. rewrite nth_error_app2 by lia. replace (length b + i - length b) with i by lia. reflexivity. Qed.
Lemma upd_past (b t : heap) i x : upd (b ++ t) (length b + i) x = b ++ upd t i x.
Proof. induction b; simpl; congruence. Qed.
Lemma drop_last (t : heap) f : drop (S (S f)) (t ++ [mkO 1 []]) [length t] = Ok (t ++ [dead]).
Proof.
  replace (length t) with (length t + 0) by lia. cbn [drop]. rewrite aget_past. cbn [aget nth_error bind cnt]. rewrite upd_past. reflexivity.
Qed.
Lemma total_app a b : total (a ++ b) = total a + total b.
Proof. unfold total. rewrite map_app, list_sum_app. reflexivity. Qed.
Lemma decref_last (t : heap) : decref (t ++ [mkO 1 []]) (length t) = Ok (t ++ [dead]).
Proof. unfold decref. rewrite total_app. replace (total t + total [mkO 1 []] + 1) with (S (S (total t))) by (unfold total; simpl; lia). apply drop_last. Qed.
Lemma decref_before (t : heap) k : decref (t ++ mkO 1 [] :: k) (length t) = Ok (t ++ dead :: k).
Proof.
  unfold decref. rewrite total_app. replace (total t + total (mkO 1 [] :: k) + 1) with (S (S (total t + total k))) by (unfold total; simpl; lia).
  replace (length t) with (length t + 0) by lia. cbn [drop]. rewrite aget_past. cbn [aget nth_error bind cnt]. rewrite upd_past. reflexivity.
Qed.
(** Two tuples of one owner each whose items, all deallocated, are the numbers [lo, hi). *)
Definition tuples (b : heap) (si di : list nat) (k : nat) : heap := b ++ mkO 1 si :: mkO 1 di :: repeat dead k.
Definition among (lo hi : nat) (l : list nat) : Prop := forall x, In x l -> lo <= x < hi.
Lemma tuples_length b si di k : length (tuples b si di k) = length b + 2 + k.
Proof. unfold tuples. rewrite app_length. simpl. rewrite repeat_length. lia. Qed.
Lemma fill_step b si di k n :
  fill_tuples (tuples b si di k) (S n) (length b + 0) (length b + 1) =
  fill_tuples (tuples b (si ++ [length b + 2 + k]) (di ++ [length b + 3 + k]) (k + 2)) n (length b + 0) (length b + 1).
Proof.
  cbn [fill_tuples fresh]. rewrite app_length, tuples_length. cbn [length].
  replace (length b + 2 + k + 1) with (length b + 3 + k) by lia.
  set (st := length b + 2 + k). set (dm := length b + 3 + k).
  unfold tuples at 1. rewrite <- !app_assoc. cbn [app]. unfold steal. rewrite aget_past. cbn [aget nth_error bind cnt Nat.eqb items].
  rewrite upd_past. cbn [upd]. rewrite aget_past. cbn [aget nth_error bind cnt Nat.eqb items]. rewrite upd_past. cbn [upd xdecref].
  set (t0 := b ++ mkO 1 (si ++ [st]) :: mkO 1 (di ++ [dm]) :: repeat dead k).
  replace (b ++ mkO 1 (si ++ [st]) :: mkO 1 (di ++ [dm]) :: repeat dead k ++ [mkO 1 []; mkO 1 []]) with ((t0 ++ [mkO 1 []]) ++ [mkO 1 []]).
  2:{ unfold t0. rewrite <- !app_assoc. reflexivity. }
  assert (Lt : length t0 = st) by (unfold t0, st; rewrite app_length; simpl; rewrite repeat_length; lia).
  assert (Ld : length (t0 ++ [mkO 1 []]) = dm) by (rewrite app_length, Lt; unfold st, dm; simpl; lia).
  rewrite <- Ld at 1. rewrite decref_last. cbn [bind]. rewrite <- app_assoc. cbn [app]. rewrite <- Lt at 1. rewrite decref_before. cbn [bind].
  f_equal. unfold t0, tuples. rewrite <- app_assoc. cbn [app]. rewrite repeat_app. reflexivity.
Qed.
Lemma fill_all b n : forall si di k, among (length b + 2) (length b + 2 + k) si -> among (length b + 2) (length b + 2 + k) di ->
  exists si' di' k', fill_tuples (tuples b si di k) n (length b + 0) (length b + 1) = Ok (tuples b si' di' k') /\
    among (length b + 2) (length b + 2 + k') di' /\ length di' = length di + n.
Proof.
  induction n as [|n IH]; intros si di k Hs Hd.
  - exists si, di, k. split; [reflexivity|]. split; [exact Hd|lia].
  - rewrite fill_step. destruct (IH (si ++ [length b + 2 + k]) (di ++ [length b + 3 + k]) (k + 2)) as (si' & di' & k' & E & D & L).
    + intros x I. apply in_app_or in I. destruct I as [I|[<-|[]]]; [specialize (Hs x I)|]; lia.
    + intros x I. apply in_app_or in I. destruct I as [I|[<-|[]]]; [specialize (Hd x I)|]; lia.
    + exists si', di', k'. split; [exact E|]. split; [exact D|]. rewrite L, app_length. simpl. lia.
Qed.
Lemma cupy_dangles h n : createCupyArray h (S n) = Fault FDangling.
Proof.
  unfold createCupyArray. cbn [fresh]. rewrite app_length. cbn [length].
  replace ((h ++ [mkO 1 []]) ++ [mkO 1 []]) with (tuples h [] [] 0) by (unfold tuples; rewrite <- app_assoc; reflexivity).
  replace (length h) with (length h + 0) at 1 by lia.
  destruct (@fill_all h (S n) [] [] 0) as (si & di & k & E & D & L); try (intros x []).
  rewrite E. cbn [bind xdecref]. destruct di as [|d di]; [discriminate L|].
  unfold decref. unfold tuples at 1. rewrite total_app. 
  replace (total h + total (mkO 1 si :: mkO 1 (d :: di) :: repeat dead k) + 1) with (S (S (S (total h + total (repeat dead k))))) by (unfold total; simpl; lia).
  unfold tuples. cbn [drop]. rewrite aget_past. cbn [aget nth_error bind cnt items]. rewrite upd_past. cbn [upd app].
  assert (R : length h + 2 <= d < length h + 2 + k) by (apply D; left; reflexivity).
  replace d with (length h + (2 + (d - length h - 2))) by lia. rewrite aget_past. cbn [Nat.add]. unfold aget. cbn [nth_error].
  rewrite nth_error_repeat by lia. reflexivity.
Qed.
Lemma cupy_scalar h : createCupyArray h 0 = Ok (h ++ [dead; dead]).
Proof.
  unfold createCupyArray. cbn [fresh fill_tuples bind xdecref]. rewrite decref_last. cbn [bind]. rewrite <- app_assoc. cbn [app]. apply decref_before.
Qed.

(** * Nothing stays when nobody owns anything *)
Definition tree (h : heap) : Prop :=
  forall o x, nth_error h o = Some x -> (cnt x = 0 -> items x = []) /\ forall i, In i (items x) -> i < o.
Lemma tree_upd h o x y : tree h -> nth_error h o = Some x -> (cnt y = 0 -> items y = []) -> (forall i, In i (items y) -> i < o) -> tree (upd h o y).
Proof.
  intros T E C I p z N. destruct (Nat.eq_dec o p) as [<-|D].
  - rewrite nth_error_upd_eq in N by (apply nth_error_Some; congruence). injection N as <-. auto.
  - rewrite nth_error_upd_ne in N by exact D. exact (T _ _ N).
Qed.
Lemma drop_tree fuel : forall h todo h', tree h -> drop fuel h todo = Ok h' -> tree h'.
Proof.
  induction fuel as [|f IH]; intros h [|o rest] h' T D; simpl in D; try discriminate; try (injection D as <-; exact T).
  unfold aget in D. destruct (nth_error h o) as [x|] eqn:E; [|discriminate]. cbn [bind] in D. destruct (cnt x) as [|[|n]] eqn:C; [discriminate| |].
  - eapply IH; [|exact D]. eapply tree_upd; eauto. intros i [].
  - eapply IH; [|exact D]. eapply tree_upd; eauto; cbn [cnt items]; [discriminate|]. apply (T _ _ E).
Qed.
Lemma xdecref_tree h p h' : tree h -> xdecref h p = Ok h' -> tree h'.
Proof. destruct p; simpl; intros T D; [exact (drop_tree T D)|injection D as <-; exact T]. Qed.
Lemma xincref_tree h p h' : tree h -> xincref h p = Ok h' -> tree h'.
Proof.
  destruct p as [o|]; simpl; intros T D; [|injection D as <-; exact T]. unfold incref, aget in D. destruct (nth_error h o) as [x|] eqn:E; [|discriminate].
  cbn [bind] in D. destruct (cnt x =? 0); [discriminate|]. injection D as <-. eapply tree_upd; eauto; cbn [cnt items]; [lia|]. apply (T _ _ E).
Qed.
Lemma fresh_tree h l : tree h -> (forall i, In i l -> i < length h) -> tree (fst (fresh h l)).
Proof.
  intros T I o x N. cbn [fresh fst] in N. destruct (Nat.lt_ge_cases o (length h)) as [L|L].
  - rewrite nth_error_app1 in N by exact L. exact (T _ _ N).
  - rewrite nth_error_app2 in N by exact L. destruct (o - length h) as [|m] eqn:Q; [|destruct m; discriminate].
    injection N as <-. cbn [cnt items]. split; [discriminate|]. intros i Hi. specialize (I i Hi). lia.
Qed.
Lemma take_list_in os l r : take_list os l = Some r -> forall x, In x os -> In x l.
Proof. intros T x I. apply occ_in. rewrite (take_list_occ T x). apply occ_in in I. lia. Qed.
Lemma rstep_tree c s w w' s' : matches s w -> wstep c w = Some w' -> tree (p_heap s) -> rstep c s = Ok s' -> tree (p_heap s').
Proof.
  intros (Ev & El & B) W T H. destruct c; cbn [rstep] in H.
  - injection H as <-. exact T.
  - injection H as <-. exact T.
  - unfold copy_assign in H. destruct (getv _ _) in H; try discriminate. cbn [bind] in H. destruct (getv _ _) in H; try discriminate. cbn [bind] in H.
    destruct (xincref _ _) eqn:X in H; try discriminate. injection H as <-. exact (xincref_tree T X).
  - unfold move_assign in H. destruct (getv _ _) in H; try discriminate. cbn [bind] in H. destruct (getv _ _) in H; try discriminate. injection H as <-. exact T.
  - unfold copy_assign in H. destruct (getv _ _) in H; try discriminate. cbn [bind] in H. destruct (getv _ _) in H; try discriminate. cbn [bind] in H.
    destruct (xincref _ _) eqn:X in H; try discriminate. injection H as <-. exact (xincref_tree T X).
  - unfold move_assign in H. destruct (getv _ _) in H; try discriminate. cbn [bind] in H. destruct (getv _ _) in H; try discriminate. injection H as <-. exact T.
  - unfold ptr_assign in H. destruct (getv _ _) in H; try discriminate. cbn [bind] in H.
    destruct (xdecref _ _) eqn:X in H; try discriminate. injection H as <-. exact (xdecref_tree T X).
  - destruct (getv _ _) in H; try discriminate. injection H as <-. exact T.
  - unfold destroy in H. destruct (getv _ _) in H; try discriminate. cbn [bind] in H.
    destruct (xdecref _ _) eqn:X in H; try discriminate. cbn [bind] in H. destruct (aset _ _ _) in H; try discriminate. injection H as <-. exact (xdecref_tree T X).
  - destruct (xincref _ _) eqn:X in H; try discriminate. injection H as <-. exact (xincref_tree T X).
  - destruct (xdecref _ _) eqn:X in H; try discriminate. injection H as <-. exact (xdecref_tree T X).
  - injection H as <-. simpl in W. destruct (take_list l (w_raw w)) as [raw|] eqn:K; [|discriminate]. apply fresh_tree; [exact T|].
    intros i I. pose proof (take_list_in K I) as J. assert (P : 0 < count (p_heap s) i).
    { apply (books_count B). unfold all_owners. apply in_or_app. right. apply in_or_app. left. exact J. }
    destruct (count_pos P) as (x & _ & _ & L). exact L.
Qed.
Lemma rrun_tree prog : forall s w w' s', matches s w -> wrun prog w = Some w' -> tree (p_heap s) -> rrun prog s = Ok s' -> tree (p_heap s').
Proof.
  induction prog as [|c prog IH]; simpl; intros s w w' s' M W T H; [injection H as <-; exact T|].
  destruct (wstep c w) as [w1|] eqn:E; [|discriminate]. destruct (rstep_ok M E) as (s1 & R & M1). rewrite R in H. cbn [bind] in H.
  exact (IH _ _ _ _ M1 W (rstep_tree M E T R) H).
Qed.
Lemma nobody_owns h : tree h -> books h [] -> forall o, count h o = 0.
Proof.
  intros T B. assert (G : forall n o, length h - o <= n -> count h o = 0).
  { induction n as [|n IH]; intros o Hn; [apply count_over; lia|]. destruct (count h o) as [|c] eqn:C; [reflexivity|exfalso].
    assert (P : 0 < occ (inner h) o) by (specialize (B o); rewrite occ_nil in B; lia).
    apply occ_in in P. unfold inner in P. apply in_flat_map in P. destruct P as (x & Ix & Io). apply In_nth_error in Ix. destruct Ix as (p & Ep).
    destruct (T _ _ Ep) as [Z L]. specialize (L _ Io). destruct (@count_pos h o) as (_ & _ & _ & Lo); [lia|].
    assert (Q : count h p = 0) by (apply IH; lia). unfold count in Q. rewrite Ep in Q. rewrite (Z Q) in Io. destruct Io. }
  intros o. apply (G (length h)). lia.
Qed.
Lemma wstep_lost c w w' : wstep c w = Some w' -> forall o, occ (w_lost w) o <= occ (w_lost w') o.
Proof.
  intros H o. assert (G : forall p w1, give w p = Some w1 -> w_lost w1 = w_lost w) by (intros p w1 Q; apply (give_occ Q)).
  destruct c; simpl in H;
    repeat match type of H with
    | match ?x with _ => _ end = _ => let E := fresh "E" in destruct x eqn:E; try discriminate H
    end; try (injection H as <-); cbn; rewrite ?occ_app; try lia; try (erewrite <- G by eassumption; lia).
Qed.
Lemma wrun_lost prog : forall w w', wrun prog w = Some w' -> forall o, occ (w_lost w) o <= occ (w_lost w') o.
Proof.
  induction prog as [|c prog IH]; simpl; intros w w' H o; [injection H as <-; lia|].
  destruct (wstep c w) as [w1|] eqn:E; [|discriminate]. pose proof (wstep_lost E o). specialize (IH _ _ H o). lia.
Qed.
Lemma wrun_app p q w : wrun (p ++ q) w = match wrun p w with Some w' => wrun q w' | None => None end.
Proof. revert w. induction p as [|c p IH]; intros w; simpl; [reflexivity|]. destruct (wstep c w); auto. Qed.
