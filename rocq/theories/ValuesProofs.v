(** Programs over objects with owned storage refine programs over values. *)
From Coq Require Import List Arith Lia Bool Permutation.
From Verif Require Import Base BaseProofs Values.
Import ListNotations.
Set Implicit Arguments.
Unset Strict Implicit.

Section VP.
Variable M St F : Type.
Variable cl : class M St F.
Hypothesis null_nothing : is_null cl (nothing cl) = true.
Hypothesis null_eq : forall s, is_null cl s = true -> s = nothing cl.
Notation object := (object M).
Notation state := (state M St).
Implicit Types (h : list (option St)).

Definition hd (o : option object) : list nat :=
  match o with Some ob => match o_handle ob with Some k => [k] | None => [] end | None => [] end.
Definition handles (L : list (option object)) : list nat := flat_map hd L.
Definition orel h (o : option object) (v : option (M * St)) : Prop :=
  match o, v with
  | None, None => True
  | Some ob, Some (m, s) => o_members ob = m /\
      match o_handle ob with None => s = nothing cl | Some k => nth_error h k = Some (Some s) /\ is_null cl s = false end
  | _, _ => False
  end.
Definition rel (st : state) (vs : values M St) : Prop := exists lp,
  Forall2 (orel (heap st)) (vars st) (fst vs) /\ NoDup (handles (vars st) ++ lp) /\
  (forall k s, nth_error (heap st) k = Some (Some s) -> In k (handles (vars st) ++ lp)) /\
  Forall2 (fun k s => nth_error (heap st) k = Some (Some s)) lp (snd vs).

Lemma nodup_tail {X} (a b : list X) : NoDup (a ++ b) -> NoDup b.
Proof. induction a as [|x a IH]; cbn; auto. intros H. inversion H; auto. Qed.
Lemma handles_upd L : forall x o o', nth_error L x = Some o -> Permutation (handles (upd L x o') ++ hd o) (handles L ++ hd o').
Proof.
  induction L as [|a L IH]; intros [|x] o o' E; try discriminate.
  - injection E as ->. cbn [upd handles flat_map]. fold (handles L). rewrite <- !app_assoc. etransitivity; [apply Permutation_app_comm|]. rewrite <- app_assoc.
    etransitivity; [apply Permutation_app_comm|]. rewrite <- app_assoc. apply Permutation_app_head. apply Permutation_app_comm || reflexivity.
  - cbn [upd handles flat_map]. fold (handles L). fold (handles (upd L x o')). rewrite <- !app_assoc. apply Permutation_app_head. apply IH. exact E.
Qed.
Lemma in_handles L x ob k : nth_error L x = Some (Some ob) -> o_handle ob = Some k -> In k (handles L).
Proof. intros E H. unfold handles. apply in_flat_map. exists (Some ob). split; [eapply nth_error_In; exact E|]. cbn. rewrite H. cbn. auto. Qed.
Lemma agree h h' L L' : Forall2 (orel h) L L' -> (forall k, In k (handles L) -> nth_error h' k = nth_error h k) -> Forall2 (orel h') L L'.
Proof.
  intros Fl. induction Fl as [|o v L L' R Fl IH]; intros A; constructor.
  - unfold orel in *. destruct o as [ob|], v as [[m s]|]; auto. destruct R as [Em R]. split; [exact Em|]. destruct (o_handle ob) as [k|] eqn:Eh; [|exact R].
    rewrite A; [exact R|]. cbn [handles flat_map hd]. rewrite Eh. cbn. auto.
  - apply IH. intros k Hk. apply A. cbn [handles flat_map]. apply in_or_app. right. exact Hk.
Qed.
Lemma f2_nth h L L' x ob : Forall2 (orel h) L L' -> nth_error L x = Some (Some ob) ->
  exists m s, nth_error L' x = Some (Some (m, s)) /\ orel h (Some ob) (Some (m, s)).
Proof.
  intros Fl. revert x. induction Fl as [|o v L L' R Fl IH]; intros [|x] E; try discriminate.
  - injection E as ->. destruct v as [[m s]|]; [|contradiction]. exists m, s. auto.
  - apply IH. exact E.
Qed.
Lemma f2_none h L (L' : list (option (M * St))) x : Forall2 (orel h) L L' -> (forall ob, nth_error L x <> Some (Some ob)) -> var L' x = Fault FDangling.
Proof.
  unfold var. intros Fl. revert x. induction Fl as [|o v L L' R Fl IH]; intros [|x] E; cbn in *; auto.
  destruct v as [[m s]|]; [|reflexivity]. destruct o as [ob|]; [|contradiction]. exfalso. apply (E ob). reflexivity.
Qed.
Lemma f2_upd h L L' x o v : Forall2 (orel h) L L' -> orel h o v -> Forall2 (orel h) (upd L x o) (upd L' x v).
Proof. intros Fl R. revert x. induction Fl as [|a b L L' Rab Fl IH]; intros [|x]; cbn; constructor; auto. Qed.
(** The variables at both levels. *)
Lemma var_cases h L L' x : Forall2 (orel h) L L' ->
  (exists ob m s, nth_error L x = Some (Some ob) /\ nth_error L' x = Some (Some (m, s)) /\ var L x = Ok ob /\ var L' x = Ok (m, s) /\ orel h (Some ob) (Some (m, s))) \/
  (var L x = Fault FDangling /\ var L' x = Fault FDangling).
Proof.
  intros Fl. destruct (nth_error L x) as [[ob|]|] eqn:E.
  - left. destruct (f2_nth Fl E) as (m & s & E' & R). exists ob, m, s. unfold var. rewrite E, E'. auto.
  - right. split; [unfold var; rewrite E; reflexivity|]. apply (f2_none Fl). congruence.
  - right. split; [unfold var; rewrite E; reflexivity|]. apply (f2_none Fl). congruence.
Qed.
Lemma load_ok h ob m s : orel h (Some ob) (Some (m, s)) -> load cl h (o_handle ob) = Ok s.
Proof. intros [_ R]. unfold load. destruct (o_handle ob); [rewrite (proj1 R); reflexivity|rewrite R; reflexivity]. Qed.
Lemma nth_lt {X} (l : list X) k x : nth_error l k = Some x -> k < length l.
Proof. intros E. apply nth_error_Some. congruence. Qed.

Lemma drop_ok h ob m s : orel h (Some ob) (Some (m, s)) ->
  exists h', drop h (o_handle ob) = Ok h' /\ (forall k, o_handle ob <> Some k -> nth_error h' k = nth_error h k) /\
    (forall k s', nth_error h' k = Some (Some s') -> o_handle ob <> Some k /\ nth_error h k = Some (Some s')).
Proof.
  intros [_ R]. unfold drop. destruct (o_handle ob) as [p|] eqn:E.
  - destruct R as [R _]. rewrite R. eexists. split; [reflexivity|]. pose proof (nth_lt R) as Lp. split.
    + intros k N. apply nth_error_upd_ne. congruence.
    + intros k s' Hk. destruct (Nat.eq_dec p k) as [->|N]; [rewrite nth_error_upd_eq in Hk by exact Lp; discriminate|]. rewrite nth_error_upd_ne in Hk by congruence. split; congruence.
  - eexists. split; [reflexivity|]. split; auto. intros k s' Hk. split; [discriminate|exact Hk].
Qed.
Lemma save_ok h ob m s s' m' : orel h (Some ob) (Some (m, s)) ->
  exists h' p', save cl h (o_handle ob) s' = Ok (h', p') /\ orel h' (Some (mkObject m' p')) (Some (m', s')) /\
    (forall k, o_handle ob <> Some k -> k < length h -> nth_error h' k = nth_error h k) /\
    (p' = o_handle ob \/ p' = None \/ (o_handle ob = None /\ p' = Some (length h))) /\
    (forall k t, nth_error h' k = Some (Some t) -> p' = Some k \/ (o_handle ob <> Some k /\ nth_error h k = Some (Some t))).
Proof.
  intros R. unfold save. destruct (is_null cl s') eqn:En.
  - destruct (drop_ok R) as (h' & -> & Sa & Li). cbn [bind]. exists h', None. split; [reflexivity|]. split; [|split; [|split]].
    + cbn. split; [reflexivity|]. apply null_eq. exact En.
    + intros k N _. apply Sa. exact N.
    + auto.
    + intros k t Hk. right. apply (Li k t Hk).
  - destruct R as [_ R]. destruct (o_handle ob) as [p|] eqn:E.
    + destruct R as [R _]. rewrite R. pose proof (nth_lt R) as Lp. eexists _, _. split; [reflexivity|]. split; [|split; [|split]].
      * cbn. split; [reflexivity|]. split; [apply nth_error_upd_eq; exact Lp|exact En].
      * intros k N _. apply nth_error_upd_ne. congruence.
      * auto.
      * intros k t Hk. destruct (Nat.eq_dec p k) as [->|N]; [auto|]. rewrite nth_error_upd_ne in Hk by congruence. right. split; congruence.
    + eexists _, _. split; [reflexivity|]. split; [|split; [|split]].
      * cbn. split; [reflexivity|]. split; [rewrite nth_error_app2, Nat.sub_diag by lia; reflexivity|exact En].
      * intros k _ Lk. apply nth_error_app1. exact Lk.
      * auto.
      * intros k t Hk. destruct (Nat.lt_ge_cases k (length h)) as [Lk|Lk].
        -- rewrite nth_error_app1 in Hk by exact Lk. right. split; [discriminate|exact Hk].
        -- rewrite nth_error_app2 in Hk by exact Lk. left. destruct (k - length h) as [|j] eqn:Ej; [f_equal; lia|]. cbn in Hk. destruct j; discriminate.
Qed.
(** Handles in use are live. *)
Lemma handle_live h L L' k : Forall2 (orel h) L L' -> In k (handles L) -> k < length h.
Proof.
  intros Fl. induction Fl as [|o v L L' R Fl IH]; cbn [handles flat_map]; [intros []|]. intros H. apply in_app_or in H. destruct H as [H|H]; [|auto].
  unfold orel in R. destruct o as [ob|]; [|destruct H]. destruct v as [[m s]|]; [|contradiction]. destruct R as [_ R]. cbn in H. destruct (o_handle ob); [|destruct H].
  destruct H as [<-|[]]. eapply nth_lt. exact (proj1 R).
Qed.
Lemma nodup_other L lp x ob k : NoDup (handles L ++ lp) -> nth_error L x = Some (Some ob) -> o_handle ob = Some k ->
  forall o', Permutation (handles (upd L x o') ++ hd (Some ob)) (handles L ++ hd o') -> ~ In k (handles (upd L x None)).
Proof.
  intros ND E Eh o' _. pose proof (@handles_upd L x (Some ob) None E) as P. cbn [hd] in P. rewrite Eh, app_nil_r in P. cbn [app] in P.
  apply (Permutation_NoDup (l' := (handles (upd L x None) ++ [k]) ++ lp)) in ND; [|apply Permutation_app_tail; symmetry; exact P].
  rewrite <- app_assoc in ND. cbn in ND. apply NoDup_remove_2 in ND. intros H. apply ND. apply in_or_app. auto.
Qed.

(** After a change of one object's members and storage. *)
Lemma save_rel st vs x ob m s m' s' : rel st vs -> nth_error (vars st) x = Some (Some ob) -> orel (heap st) (Some ob) (Some (m, s)) ->
  exists h' p', save cl (heap st) (o_handle ob) s' = Ok (h', p') /\ rel (put st x m' h' p') (set vs x (m', s')).
Proof.
  intros (lp & Fl & ND & Li & Lo) E R. destruct (save_ok s' m' R) as (h' & p' & Es & R' & Sa & Ca & Li'). exists h', p'. split; [exact Es|].
  pose proof (@handles_upd (vars st) x (Some ob) (Some (mkObject m' p')) E) as P. pose proof (@handles_upd (vars st) x (Some ob) None E) as P0. cbn [hd] in P0. rewrite app_nil_r in P0.
  assert (Q : Permutation (handles (upd (vars st) x (Some (mkObject m' p'))) ++ lp) (hd (Some (mkObject m' p')) ++ handles (upd (vars st) x None) ++ lp)).
  { rewrite app_assoc. apply Permutation_app_tail. apply (Permutation_app_inv_r (hd (Some ob))). etransitivity; [exact P|]. rewrite <- app_assoc.
    etransitivity; [apply Permutation_app_comm|]. apply Permutation_app_head. symmetry. exact P0. }
  assert (Q0 : Permutation (handles (vars st) ++ lp) (hd (Some ob) ++ handles (upd (vars st) x None) ++ lp)).
  { rewrite app_assoc. apply Permutation_app_tail. symmetry. etransitivity; [apply Permutation_app_comm|]. exact P0. }
  set (R0 := handles (upd (vars st) x None) ++ lp) in *. assert (ND0 : NoDup (hd (Some ob) ++ R0)) by (eapply Permutation_NoDup; [exact Q0|exact ND]).
  assert (Live : forall k, In k R0 -> k < length (heap st) /\ o_handle ob <> Some k).
  { intros k Hk. split.
    - assert (In k (handles (vars st) ++ lp)) as Hin by (eapply Permutation_in; [symmetry; exact Q0|]; apply in_or_app; auto).
      apply in_app_or in Hin. destruct Hin as [Hin|Hin]; [eapply handle_live; eassumption|].
      clear -Lo Hin. induction Lo as [|k0 s0 lp ss L0 Lo IH]; [destruct Hin|]. destruct Hin as [->|Hin]; [eapply nth_lt; exact L0|auto].
    - intros Eh. cbn [hd] in ND0. rewrite Eh in ND0. cbn in ND0. inversion ND0; subst. contradiction. }
  exists lp. unfold put, set. cbn [vars heap fst snd]. split; [|split; [|split]].
  - clear -Fl R' Sa Live E. revert Fl. generalize (fst vs). intros L' Fl.
    assert (Fl0 : Forall2 (orel h') (upd (vars st) x None) (upd L' x None)).
    { apply agree with (h := heap st); [apply f2_upd; [exact Fl|exact Logic.I]|]. intros k Hk. destruct (Live k ltac:(apply in_or_app; auto)) as [L1 L2]. apply Sa; assumption. }
    assert (Uu : forall X (l : list X) y z, upd (upd l x y) x z = upd l x z) by (clear; intros X l; revert x; induction l as [|a l IH]; intros [|x] y z; cbn; auto; f_equal; auto).
    rewrite <- (Uu _ (vars st) None (Some (mkObject m' p'))). rewrite <- (Uu _ L' None (Some (m', s'))). apply f2_upd; assumption.
  - eapply Permutation_NoDup; [symmetry; exact Q|]. cbn [hd o_handle]. destruct p' as [q|].
    + cbn. constructor; [|eapply nodup_tail; exact ND0]. intros Hin. destruct (Live q Hin) as [L1 L2]. destruct Ca as [Ca|[Ca|[_ Ca]]]; try congruence. injection Ca as ->. lia.
    + cbn. eapply nodup_tail. exact ND0.
  - intros k t Hk. eapply Permutation_in; [symmetry; exact Q|]. apply in_or_app. destruct (Li' k t Hk) as [->|[N Hk']]; [left; cbn; auto|].
    right. apply Li in Hk'. eapply Permutation_in in Hk'; [|exact Q0]. apply in_app_or in Hk'. destruct Hk' as [Hk'|Hk']; [|exact Hk'].
    cbn in Hk'. destruct (o_handle ob); [destruct Hk' as [<-|[]]; congruence|destruct Hk'].
  - assert (forall k, In k lp -> nth_error h' k = nth_error (heap st) k) as Same by (intros k Hk; destruct (Live k ltac:(apply in_or_app; auto)); apply Sa; assumption).
    clear -Lo Same. induction Lo as [|k s lp ss L0 Lo IH]; constructor; [rewrite Same by (left; reflexivity); exact L0|]. apply IH. intros k' Hk'. apply Same. right. exact Hk'.
Qed.

(** After the storage of an object has been released. *)
Lemma drop_rel st vs x ob m s (o : option M) : rel st vs -> nth_error (vars st) x = Some (Some ob) -> orel (heap st) (Some ob) (Some (m, s)) ->
  exists h', drop (heap st) (o_handle ob) = Ok h' /\
    rel (mkState (upd (vars st) x (match o with Some m' => Some (mkObject m' None) | None => None end)) h')
        (upd (fst vs) x (match o with Some m' => Some (m', nothing cl) | None => None end), snd vs).
Proof.
  intros (lp & Fl & ND & Li & Lo) E R. destruct (drop_ok R) as (h' & Es & Sa & Li'). exists h'. split; [exact Es|].
  set (no := match o with Some m' => Some (mkObject m' None) | None => None end). assert (Hd : hd no = []) by (unfold no; destruct o; reflexivity).
  pose proof (@handles_upd (vars st) x (Some ob) no E) as P. rewrite Hd, app_nil_r in P.
  assert (Q0 : Permutation (handles (vars st) ++ lp) (hd (Some ob) ++ handles (upd (vars st) x no) ++ lp)).
  { rewrite app_assoc. apply Permutation_app_tail. symmetry. etransitivity; [apply Permutation_app_comm|]. exact P. }
  set (R0 := handles (upd (vars st) x no) ++ lp) in *. assert (ND0 : NoDup (hd (Some ob) ++ R0)) by (eapply Permutation_NoDup; [exact Q0|exact ND]).
  assert (Live : forall k, In k R0 -> o_handle ob <> Some k).
  { intros k Hk Eh. cbn [hd] in ND0. rewrite Eh in ND0. cbn in ND0. inversion ND0; subst. contradiction. }
  exists lp. cbn [vars heap fst snd]. split; [|split; [|split]].
  - assert (Fl0 : Forall2 (orel h') (upd (vars st) x None) (upd (fst vs) x None)).
    { apply agree with (h := heap st); [apply f2_upd; [exact Fl|exact Logic.I]|]. intros k Hk. apply Sa. apply Live. apply in_or_app. left.
      pose proof (@handles_upd (vars st) x (Some ob) None E) as P'. cbn [hd] in P'. rewrite app_nil_r in P'.
      assert (Permutation (handles (upd (vars st) x None)) (handles (upd (vars st) x no))) as Pe by (apply (Permutation_app_inv_r (hd (Some ob))); etransitivity; [exact P'|symmetry; exact P]).
      eapply Permutation_in; [exact Pe|exact Hk]. }
    assert (Uu : forall X (l : list X) y z, upd (upd l x y) x z = upd l x z) by (clear; intros X l; revert x; induction l as [|a l IH]; intros [|x] y z; cbn; auto; f_equal; auto).
    rewrite <- (Uu _ (vars st) None no). rewrite <- (Uu _ (fst vs) None (match o with Some m' => Some (m', nothing cl) | None => None end)). apply f2_upd; [exact Fl0|].
    unfold no. destruct o; cbn; auto.
  - eapply nodup_tail. exact ND0.
  - intros k t Hk. destruct (Li' k t Hk) as [N Hk']. apply Li in Hk'. eapply Permutation_in in Hk'; [|exact Q0]. apply in_app_or in Hk'. destruct Hk' as [Hk'|Hk']; [|exact Hk'].
    cbn in Hk'. destruct (o_handle ob); [destruct Hk' as [<-|[]]; congruence|destruct Hk'].
  - assert (forall k, In k lp -> nth_error h' k = nth_error (heap st) k) as Same by (intros k Hk; apply Sa; apply Live; apply in_or_app; auto).
    clear -Lo Same. induction Lo as [|k s lp ss L0 Lo IH]; constructor; [rewrite Same by (left; reflexivity); exact L0|]. apply IH. intros k' Hk'. apply Same. right. exact Hk'.
Qed.

(** A further variable. *)
Lemma new_rel st vs : rel st vs -> rel (mkState (vars st ++ [Some (mkObject (members cl) None)]) (heap st)) (fst vs ++ [Some (members cl, nothing cl)], snd vs).
Proof.
  intros (lp & Fl & ND & Li & Lo). exists lp. cbn [vars heap fst snd].
  assert (Eh : handles (vars st ++ [Some (mkObject (members cl) None)]) = handles (vars st)) by (unfold handles; rewrite flat_map_app; cbn; apply app_nil_r).
  rewrite Eh. repeat split; auto. apply Forall2_app; [exact Fl|]. constructor; [|constructor]. cbn. auto.
Qed.

Lemma upd_last {X} (l : list X) a b : upd (l ++ [a]) (length l) b = l ++ [b].
Proof. induction l as [|c l IH]; cbn; [|rewrite IH]; reflexivity. Qed.
Lemma construct_rel st vs : rel st vs -> exists st', construct_new cl st = Ok st' /\ length (vars st) = length (fst vs) /\ rel st' (fst vs ++ [Some (members cl, initial cl)], snd vs).
Proof.
  intros R. assert (El : length (vars st) = length (fst vs)) by (destruct R as (lp & Fl & _); clear -Fl; induction Fl; cbn; lia).
  pose proof (new_rel R) as R1. unfold construct_new.
  assert (Ex : nth_error (vars (declare cl st)) (length (vars st)) = Some (Some (mkObject (members cl) None))) by (cbn; rewrite nth_error_app2, Nat.sub_diag by lia; reflexivity).
  destruct (@save_rel (declare cl st) _ (length (vars st)) (mkObject (members cl) None) (members cl) (nothing cl) (members cl) (initial cl) R1 Ex) as (h' & p' & Es & Rs); [cbn; auto|].
  cbn [declare heap o_handle] in Es. rewrite Es. cbn [bind]. eexists. split; [reflexivity|]. split; [exact El|]. unfold set in Rs. cbn [fst snd] in Rs. rewrite El, upd_last in Rs. rewrite El. exact Rs.
Qed.

Lemma upd_ne_nth {X} (l : list X) x y v : x <> y -> nth_error (upd l x v) y = nth_error l y.
Proof. intros N. apply nth_error_upd_ne. congruence. Qed.

(** The move itself: x's old storage is lost. *)
Lemma move_rel st vs x y ox mx sx oy my sy : rel st vs ->
  nth_error (vars st) x = Some (Some ox) -> orel (heap st) (Some ox) (Some (mx, sx)) -> nth_error (vars st) y = Some (Some oy) -> nth_error (fst vs) y = Some (Some (my, sy)) ->
  exists st', move_to cl st x y = Ok st' /\
    rel st' (upd (upd (fst vs) x (Some (my, sy))) y (Some (moved cl my, nothing cl)), lose cl sx ++ snd vs).
Proof.
  intros (lp & Fl & ND & Li & Lo) Ex Rx Ey Ey'. assert (Ry : orel (heap st) (Some oy) (Some (my, sy))).
  { destruct (f2_nth Fl Ey) as (m & s & E' & R). rewrite Ey' in E'. injection E' as <- <-. exact R. }
  unfold move_to, var. rewrite Ey. cbn [bind]. eexists. split; [reflexivity|]. unfold put. cbn [vars heap].
  assert (Em : o_members oy = my) by exact (proj1 Ry). rewrite Em.
  pose proof (@handles_upd (vars st) x (Some ox) (Some (mkObject my (o_handle oy))) Ex) as P1. set (L1 := upd (vars st) x (Some (mkObject my (o_handle oy)))) in *.
  assert (E1 : exists o1, nth_error L1 y = Some (Some o1) /\ hd (Some o1) = hd (Some oy)).
  { unfold L1. destruct (Nat.eq_dec x y) as [->|N].
    - rewrite nth_error_upd_eq by (eapply nth_lt; exact Ex). eexists. split; [reflexivity|]. reflexivity.
    - rewrite upd_ne_nth by exact N. exists oy. auto. }
  destruct E1 as (o1 & E1 & H1). pose proof (@handles_upd L1 y (Some o1) (Some (mkObject (moved cl my) None)) E1) as P2. rewrite H1 in P2. cbn [hd o_handle] in P2. rewrite app_nil_r in P2.
  set (L2 := upd L1 y (Some (mkObject (moved cl my) None))) in *.
  assert (P : Permutation (handles L2 ++ hd (Some ox) ++ lp) (handles (vars st) ++ lp)).
  { rewrite app_assoc. apply Permutation_app_tail. apply (Permutation_app_inv_r (hd (Some oy))). rewrite <- app_assoc. etransitivity; [apply Permutation_app_head; apply Permutation_app_comm|]. rewrite app_assoc.
    etransitivity; [apply Permutation_app_tail; exact P2|]. exact P1. }
  exists (hd (Some ox) ++ lp). cbn [vars heap fst snd]. split; [|split; [|split]].
  - unfold L2, L1. apply f2_upd; [|cbn; auto]. apply f2_upd; [exact Fl|]. destruct Ry as [_ Ry]. split; [reflexivity|exact Ry].
  - eapply Permutation_NoDup; [symmetry; exact P|exact ND].
  - intros k t Hk. eapply Permutation_in; [symmetry; exact P|]. eapply Li. exact Hk.
  - apply Forall2_app; [|exact Lo]. destruct Rx as [_ Rx]. unfold lose. cbn [hd]. destruct (o_handle ox).
    + destruct Rx as [Rx Nn]. rewrite Nn. constructor; [exact Rx|constructor].
    + rewrite Rx, null_nothing. constructor.
Qed.

Ltac both := cbn [bind]; try exact eq_refl.
Definition agrees (r : outcome state) (q : outcome (values M St)) : Prop :=
  match q with Ok vs' => exists st', r = Ok st' /\ rel st' vs' | Abort => r = Abort | Fault f => r = Fault f end.

Lemma copy_agrees st vs x y : rel st vs -> agrees (copy_to cl st x y) (v_copy cl vs x y).
Proof.
  intros R. destruct R as (lp & Fl & Rest) eqn:Er. clear Er. unfold copy_to, v_copy.
  destruct (var_cases x Fl) as [(ox & mx & sx & Ex & Ex' & -> & -> & Rx)|[-> ->]]; both.
  destruct (var_cases y Fl) as [(oy & my & sy & Ey & Ey' & -> & -> & Ry)|[-> ->]]; both.
  rewrite (load_ok Rx). cbn [bind]. assert (Hm : o_members ox = mx) by exact (proj1 Rx). assert (Hn : o_members oy = my) by exact (proj1 Ry). rewrite Hm.
  assert (Em : (if x =? y then assign_self cl (mx, sx) else sy <- load cl (heap st) (o_handle oy) ;; assign_copy cl (mx, sx) (o_members oy, sy)) =
               (if x =? y then assign_self cl (mx, sx) else assign_copy cl (mx, sx) (my, sy))).
  { rewrite (load_ok Ry). cbn [bind]. rewrite Hn. reflexivity. }
  rewrite Em. destruct (if x =? y then assign_self cl (mx, sx) else assign_copy cl (mx, sx) (my, sy)) as [[m' s']| |]; both.
  destruct (@save_rel st vs x ox mx sx m' s') as (h' & p' & -> & Rl); [exists lp; split; [exact Fl|exact Rest]|exact Ex|exact Rx|]. cbn [bind agrees]. eexists. split; [reflexivity|exact Rl].
Qed.
Lemma free_agrees st vs x (o : option M) : rel st vs ->
  (exists ob m s, nth_error (vars st) x = Some (Some ob) /\ var (vars st) x = Ok ob /\ o_members ob = m /\ var (fst vs) x = Ok (m, s) /\
    (exists h', destructor cl (m, s) = Ok tt /\ free_object cl st x = Ok h' /\
       rel (mkState (upd (vars st) x (match o with Some m' => Some (mkObject m' None) | None => None end)) h')
           (upd (fst vs) x (match o with Some m' => Some (m', nothing cl) | None => None end), snd vs) \/
     destructor cl (m, s) = Abort /\ free_object cl st x = Abort \/ exists f, destructor cl (m, s) = Fault f /\ free_object cl st x = Fault f)) \/
  (var (vars st) x = Fault FDangling /\ var (fst vs) x = Fault FDangling).
Proof.
  intros R. destruct R as (lp & Fl & Rest) eqn:Er. clear Er.
  destruct (var_cases x Fl) as [(ox & mx & sx & Ex & Ex' & Vx & Vx' & Rx)|[Vx Vx']]; [left|right; auto].
  assert (Hm : o_members ox = mx) by exact (proj1 Rx).
  exists ox, mx, sx. split; [exact Ex|]. split; [exact Vx|]. split; [exact Hm|]. split; [exact Vx'|].
  destruct (@drop_rel st vs x ox mx sx o) as (h' & Ed & Rl); [exists lp; split; [exact Fl|exact Rest]|exact Ex|exact Rx|]. exists h'.
  unfold free_object. rewrite Vx. cbn [bind]. rewrite (load_ok Rx). cbn [bind]. rewrite Hm. destruct (destructor cl (mx, sx)) as [[]| |f]; cbn [bind].
  - left. rewrite Ed. auto.
  - right. left. auto.
  - right. right. exists f. auto.
Qed.

Theorem execute_agrees i st vs : rel st vs -> agrees (execute cl i st) (v_execute cl i vs).
Proof.
  intros R. destruct i as [|y|y|x f|x y|x y|x]; cbn [execute v_execute].
  - destruct (construct_rel R) as (st' & -> & _ & R'). eexists. split; [reflexivity|exact R'].
  - assert (El : length (vars st) = length (fst vs)) by (destruct R as (lp & Fl & _); clear -Fl; induction Fl; cbn; lia).
    rewrite El. apply copy_agrees. exact (new_rel R).
  - assert (El : length (vars st) = length (fst vs)) by (destruct R as (lp & Fl & _); clear -Fl; induction Fl; cbn; lia).
    pose proof (new_rel R) as R1. change (mkState _ _) with (declare cl st) in R1. set (st1 := declare cl st) in *. set (vs1 := (_, _)) in *. destruct R1 as (lp & Fl & Rest) eqn:Er. clear Er.
    destruct (@var_cases _ _ _ y Fl) as [(oy & my & sy & Ey & Ey' & Vy & Vy' & Ry)|[Vy Vy']].
    + unfold vs1 in Vy'; cbn [fst] in Vy'; rewrite Vy'. cbn [bind agrees fst].
      assert (Ex : nth_error (vars st1) (length (vars st)) = Some (Some (mkObject (members cl) None))) by (cbn; rewrite nth_error_app2, Nat.sub_diag by lia; reflexivity).
      destruct (@move_rel st1 vs1 (length (vars st)) y (mkObject (members cl) None) (members cl) (nothing cl) oy my sy) as (st' & Em & Rm); auto.
      { cbn. auto. }
      exists st'. split; [exact Em|]. unfold lose in Rm. rewrite null_nothing in Rm. cbn [app vs1 fst snd] in Rm. rewrite El in Rm.
      rewrite upd_last in Rm. exact Rm.
    + unfold vs1 in Vy'; cbn [fst] in Vy'. rewrite Vy'. cbn [bind agrees]. unfold move_to. rewrite Vy. reflexivity.
  - destruct R as (lp & Fl & Rest) eqn:Er. clear Er. destruct (var_cases x Fl) as [(ox & mx & sx & Ex & Ex' & -> & -> & Rx)|[-> ->]]; both.
    rewrite (load_ok Rx). cbn [bind]. rewrite (proj1 Rx). destruct (call cl f (mx, sx)) as [[m' s']| |]; both.
    destruct (@save_rel st vs x ox mx sx m' s') as (h' & p' & -> & Rl); [exists lp; split; [exact Fl|exact Rest]|exact Ex|exact Rx|]. cbn [bind agrees]. eexists. split; [reflexivity|exact Rl].
  - apply copy_agrees. exact R.
  - destruct (frees cl) eqn:Ef.
    + destruct (@free_agrees st vs x (match nth_error (vars st) x with Some (Some ob) => Some (freed cl (o_members ob)) | _ => None end) R) as [(ob & m & s & Ex & -> & Em & -> & Fr)|[-> ->]]; both.
      rewrite Ex in Fr. rewrite Em in *. destruct Fr as (h' & [(-> & -> & Rl)|[[-> ->]|(f & -> & ->)]]); both.
      cbn [bind]. set (st1 := put st x (freed cl m) h' None) in *. change (mkState _ _) with st1 in Rl. unfold set. cbn [fst snd]. set (vs1 := (_, _)) in Rl. 
      destruct Rl as (lp & Fl & Rest) eqn:Er. clear Er. cbn [vs1 fst] in Fl.
      destruct (@var_cases _ _ _ y Fl) as [(oy & my & sy & Ey & Ey' & Vy & Vy' & Ry)|[Vy Vy']].
      * rewrite Vy'. cbn [bind agrees fst]. assert (Ex1 : nth_error (vars st1) x = Some (Some (mkObject (freed cl m) None))) by (cbn; apply nth_error_upd_eq; eapply nth_lt; exact Ex).
        destruct (@move_rel st1 vs1 x y (mkObject (freed cl m) None) (freed cl m) (nothing cl) oy my sy) as (st' & Em' & Rm); auto.
        { cbn. auto. }
        exists st'. split; [exact Em'|]. unfold lose in Rm. rewrite null_nothing in Rm. exact Rm.
      * rewrite Vy'. cbn [bind agrees]. unfold move_to. rewrite Vy. reflexivity.
    + destruct R as (lp & Fl & Rest) eqn:Er. clear Er. destruct (var_cases x Fl) as [(ox & mx & sx & Ex & Ex' & -> & -> & Rx)|[-> ->]]; both.
      cbn [bind]. destruct (@var_cases _ _ _ y Fl) as [(oy & my & sy & Ey & Ey' & Vy & Vy' & Ry)|[Vy Vy']].
      * cbn [fst]. rewrite Vy'. cbn [bind agrees]. destruct (@move_rel st vs x y ox mx sx oy my sy) as (st' & Em' & Rm); auto.
        exists st'. split; [exact Em'|]. exact Rm.
      * cbn [fst]. rewrite Vy'. cbn [bind agrees]. unfold move_to. rewrite Vy. reflexivity.
  - destruct (@free_agrees st vs x None R) as [(ob & m & s & Ex & V1 & Em & -> & Fr)|[V1 ->]]; both.
    + destruct Fr as (h' & [(-> & -> & Rl)|[[-> ->]|(f & -> & ->)]]); both. cbn [bind agrees]. eexists. split; [reflexivity|exact Rl].
    + unfold free_object. rewrite V1. reflexivity.
Qed.
Theorem executes_agrees l : forall st vs, rel st vs -> agrees (executes cl l st) (v_executes cl l vs).
Proof.
  induction l as [|i l IH]; intros st vs R; cbn [executes v_executes]; [exists st; auto|].
  pose proof (execute_agrees i R) as A. destruct (v_execute cl i vs) as [vs'| |f]; cbn [agrees] in A.
  - destruct A as (st' & -> & R'). cbn [bind]. apply IH. exact R'.
  - rewrite A. reflexivity.
  - rewrite A. reflexivity.
Qed.
Lemma start_rel : rel (mkState [] []) ([], []).
Proof. exists []. cbn. repeat split; try constructor. intros [|k] s; discriminate. Qed.
End VP.
