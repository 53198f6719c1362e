(** What the parser accepts: every rectangular nest of tokens passes all checks, is scanned to its
    extents and parsed to its values. *)
From Coq Require Import List Arith ZArith NArith Ascii Lia Bool.
From Verif Require Import Base BaseProofs Indexing IndexingSpec Text TextSpec TextMem TextSound.
Import ListNotations.
Set Implicit Arguments.
Unset Strict Implicit.

Lemma strip_squeeze s : strip s = squeeze s.
Proof.
  unfold strip. induction s as [|c s IH]; [reflexivity|]. cbn [filter squeeze]. unfold is. change c_space with " "%char in *.
  destruct (Ascii.eqb c " "%char); cbn [negb]; rewrite <- IH; reflexivity.
Qed.
Lemma squeeze_app a b : squeeze (a ++ b) = squeeze a ++ squeeze b.
Proof. induction a as [|c a IH]; [reflexivity|]. cbn. destruct (Ascii.eqb c " "%char); cbn; rewrite IH; reflexivity. Qed.
Lemma squeeze_in c s : In c (squeeze s) -> In c s /\ c <> c_space.
Proof.
  induction s as [|x s IH]; [intros []|]. cbn [squeeze]. destruct (Ascii.eqb_spec x " "%char) as [E|E].
  - intros H. destruct (IH H). split; auto. right; auto.
  - intros [<-|H]; [split; [left; reflexivity|exact E]|]. destruct (IH H). split; auto. right; auto.
Qed.

(** ** Values separated by spaces only *)
Lemma delim_app a : forall b v sp, no_space_delimited (a ++ b) v sp = Ok tt -> exists v' sp', no_space_delimited b v' sp' = Ok tt.
Proof.
  induction a as [|c a IH]; intros b v sp H; [eauto|]. cbn [app no_space_delimited] in H.
  destruct (is c c_open || is c c_comma || is c c_close)%bool; [eauto|]. destruct (is c c_space); [eauto|].
  destruct (v && sp)%bool; [discriminate|]. cbn [error_if bind] in H. eauto.
Qed.
Lemma not_special c : ~ special c -> (is c c_open || is c c_comma || is c c_close)%bool = false /\ is c c_space = false.
Proof. rewrite special_iff. intros H. rewrite !orb_false_iff, !is_ne. intuition. Qed.
Lemma delim_ok s v sp : no_space_delimited s v sp = Ok tt -> delimited s.
Proof.
  intros H a x k y b ->.
  destruct (in_dec ascii_dec x ["{"; "}"; ","; " "]%char) as [X|X]; [left; exact X|].
  destruct (in_dec ascii_dec y ["{"; "}"; ","; " "]%char) as [Y|Y]; [right; exact Y|]. exfalso.
  apply delim_app in H. destruct H as (v1 & s1 & H). cbn [app no_space_delimited] in H.
  destruct (not_special X) as [X1 X2]. rewrite X1, X2 in H. destruct (v1 && s1)%bool; [discriminate|]. cbn [error_if bind] in H.
  assert (G : forall k s1, no_space_delimited (repeat " "%char (S k) ++ y :: b) true s1 = Abort).
  { clear -Y. induction k as [|k IH]; intros s1.
    - cbn. destruct (not_special Y) as [Y1 Y2]. rewrite Y1, Y2. reflexivity.
    - exact (IH true). }
  cbn [app] in G. rewrite G in H. discriminate.
Qed.
Lemma delim_abort s : forall v sp, no_space_delimited s v sp <> Ok tt ->
  ~ delimited s \/ (v = true /\ exists k y b, s = repeat " "%char k ++ y :: b /\ ~ special y /\ (sp = true \/ 0 < k)).
Proof.
  induction s as [|c s IH]; intros v sp H; [exfalso; apply H; reflexivity|]. cbn [no_space_delimited] in H.
  assert (L : ~ delimited s -> ~ delimited (c :: s)).
  { intros Nd Dl. apply Nd. intros a x k y b E. apply (Dl (c :: a) x k y b). rewrite E. reflexivity. }
  destruct (is c c_open || is c c_comma || is c c_close)%bool eqn:E1.
  - destruct (IH _ _ H) as [Nd|[F _]]; [auto|discriminate].
  - destruct (is c c_space) eqn:E2.
    + apply is_eq in E2. subst c. destruct (IH _ _ H) as [Nd|(-> & k & y & b & -> & Y & _)]; [auto|].
      right. split; [reflexivity|]. exists (S k), y, b. split; [reflexivity|]. split; [exact Y|]. right. lia.
    + assert (Sc : ~ special c).
      { rewrite special_iff. rewrite !orb_false_iff, !is_ne in E1. rewrite is_ne in E2. intuition. }
      destruct (v && sp)%bool eqn:E3.
      * apply andb_true_iff in E3. destruct E3 as [-> ->]. right. split; [reflexivity|]. exists 0, c, s. auto.
      * cbn [error_if bind] in H. destruct (IH _ _ H) as [Nd|(_ & k & y & b & -> & Y & [F|K])]; [auto|discriminate|].
        left. intros Dl. destruct k as [|k]; [lia|]. destruct (Dl [] c k y b eq_refl) as [Z|Z]; contradiction.
Qed.
Lemma delim_iff s : no_space_delimited s false false = Ok tt <-> delimited s.
Proof.
  split; [apply delim_ok|]. intros Dl. destruct (no_space_delimited s false false) as [[]| |] eqn:E; [reflexivity| |];
    exfalso; destruct (@delim_abort s false false) as [Nd|[F _]]; try congruence; auto.
Qed.
Lemma delim_outcome s : forall v sp, no_space_delimited s v sp = Ok tt \/ no_space_delimited s v sp = Abort.
Proof.
  induction s as [|c s IH]; intros v sp; [auto|]. cbn [no_space_delimited].
  destruct (is c c_open || is c c_comma || is c c_close)%bool; [auto|]. destruct (is c c_space); [auto|].
  destruct (v && sp)%bool; [auto|]. cbn [error_if bind]. auto.
Qed.

(** ** Adjacent characters *)
Lemma has_pair_adjacent x y s : has_pair x y s = true <-> adjacent x y s.
Proof.
  split.
  - induction s as [|a s IH]; [discriminate|]. destruct s as [|b s]; [discriminate|].
    change (has_pair x y (a :: b :: s)) with ((is a x && is b y) || has_pair x y (b :: s))%bool.
    rewrite orb_true_iff, andb_true_iff, !is_eq. intros [[-> ->]|H].
    + exists [], s. reflexivity.
    + destruct (IH H) as (p & r & E). exists (a :: p), r. cbn. f_equal. exact E.
  - intros (p & r & ->). induction p as [|a p IH]; [apply has_pair_hd|].
    cbn [app]. destruct (p ++ x :: y :: r) as [|b w] eqn:E; [destruct p; discriminate|].
    change (has_pair x y (a :: b :: w)) with ((is a x && is b y) || has_pair x y (b :: w))%bool. rewrite IH. apply orb_true_r.
Qed.
Lemma has_pair_app x y a b : has_pair x y a = false -> has_pair x y b = false ->
  (forall a' b', a = a' ++ [x] -> b = y :: b' -> False) -> has_pair x y (a ++ b) = false.
Proof.
  intros A B J. induction a as [|c a IH]; [exact B|]. destruct a as [|c' a].
  - cbn [app]. destruct b as [|d b]; [reflexivity|].
    change (has_pair x y (c :: d :: b)) with ((is c x && is d y) || has_pair x y (d :: b))%bool. rewrite B, orb_false_r.
    apply not_true_iff_false. rewrite andb_true_iff, !is_eq. intros [-> ->]. apply (J [] b); reflexivity.
  - cbn [app]. change (has_pair x y (c :: c' :: a ++ b)) with ((is c x && is c' y) || has_pair x y ((c' :: a) ++ b))%bool.
    change (has_pair x y (c :: c' :: a)) with ((is c x && is c' y) || has_pair x y (c' :: a))%bool in A.
    apply orb_false_iff in A. destruct A as [A1 A2]. rewrite A1. cbn [orb]. apply IH; [exact A2|].
    intros a' b' E1 E2. apply (J (c :: a') b'); [rewrite E1; reflexivity|exact E2].
Qed.

Definition nice (w : text) : Prop :=
  has_pair c_close c_open w = false /\ has_pair c_open c_close w = false /\
  (exists c m, w = c :: m /\ c <> c_close /\ c <> c_comma) /\ (exists m z, w = m ++ [z] /\ z <> c_open /\ z <> c_comma).

Lemma last_eq {A} (a b : list A) x y : a ++ [x] = b ++ [y] -> x = y.
Proof. intros H. apply app_inj_tail in H. apply H. Qed.

Lemma nice_token t : token t -> nice t.
Proof.
  intros T. apply token_ordinary in T. destruct T as [Nn F]. 
  assert (G : forall x y, special x -> has_pair x y t = false).
  { intros x y Sx. apply not_true_iff_false. rewrite has_pair_adjacent. intros (a & b & ->). apply Forall_app in F. destruct F as [_ F].
    inversion F as [|? ? [O _] _]; subst. contradiction. }
  repeat split.
  - apply G. apply special_iff. auto.
  - apply G. apply special_iff. auto.
  - destruct t as [|c m]; [congruence|]. exists c, m. inversion F as [|? ? O _]; subst. destruct (ordinary_is O) as (_ & B & C & _).
    rewrite is_ne in B, C. auto.
  - destruct (rev t) as [|z m] eqn:E; [apply (f_equal (@rev ascii)) in E; rewrite rev_involutive in E; contradiction|].
    apply (f_equal (@rev ascii)) in E. rewrite rev_involutive in E. cbn in E. exists (rev m), z. subst t.
    apply Forall_app in F. destruct F as [_ F]. inversion F as [|? ? O _]; subst. destruct (ordinary_is O) as (A & _ & C & _).
    rewrite is_ne in A, C. auto.
Qed.

Lemma nice_join l : l <> [] -> Forall nice l -> nice (join [c_comma] l).
Proof.
  intros Nl F. induction F as [|x l Hx F IH]; [congruence|]. destruct l as [|y l]; [exact Hx|].
  change (join [c_comma] (x :: y :: l)) with (x ++ [c_comma] ++ join [c_comma] (y :: l)).
  specialize (IH ltac:(discriminate)). destruct IH as (I1 & I2 & (c1 & m1 & E1 & N1 & N1') & (m2 & z2 & E2 & N2 & N2')).
  destruct Hx as (X1 & X2 & (c3 & m3 & E3 & N3 & N3') & (m4 & z4 & E4 & N4 & N4')).
  assert (T : forall x0 y0, x0 <> c_comma -> y0 <> c_comma -> has_pair x0 y0 (join [c_comma] (y :: l)) = false -> has_pair x0 y0 x = false ->
    has_pair x0 y0 (x ++ [c_comma] ++ join [c_comma] (y :: l)) = false).
  { intros x0 y0 A B P Q. apply has_pair_app; auto.
    - apply has_pair_app; auto. intros a' b' Z _. apply (f_equal (@rev ascii)) in Z. rewrite rev_app_distr in Z. cbn in Z. injection Z as Z _. congruence.
    - intros a' b' _ Z. cbn in Z. injection Z as Z _. congruence. }
  split; [apply T; auto; discriminate|]. split; [apply T; auto; discriminate|]. split.
  - exists c3, (m3 ++ [c_comma] ++ join [c_comma] (y :: l)). rewrite E3. split; [reflexivity|auto].
  - exists (x ++ [c_comma] ++ m2), z2. rewrite E2, <- !app_assoc. split; [reflexivity|auto].
Qed.

Lemma nice_node w : nice w -> nice (c_open :: w ++ [c_close]).
Proof.
  intros (I1 & I2 & (c1 & m1 & E1 & N1 & N1') & (m2 & z2 & E2 & N2 & N2')).
  assert (T1 : has_pair c_close c_open (w ++ [c_close]) = false).
  { apply has_pair_app; auto. intros a b _ Z. discriminate. }
  assert (T2 : has_pair c_open c_close (w ++ [c_close]) = false).
  { apply has_pair_app; auto. intros a b Z _. rewrite E2 in Z. apply last_eq in Z. contradiction. }
  split; [|split].
  - change (c_open :: w ++ [c_close]) with ([c_open] ++ (w ++ [c_close])). apply has_pair_app; auto.
    intros a b Z _. assert (X : [] ++ [c_open] = a ++ [c_close]) by exact Z. apply last_eq in X. discriminate.
  - change (c_open :: w ++ [c_close]) with ([c_open] ++ (w ++ [c_close])). apply has_pair_app; auto.
    intros a b _ Z. rewrite E1 in Z. cbn in Z. injection Z as Z _. contradiction.
  - split; [exists c_open, (w ++ [c_close]); repeat split; discriminate|].
    exists (c_open :: w), c_close. repeat split; discriminate.
Qed.

(** all tokens of a nest *)
Definition tokens (ds : list nat) (tok : list Z -> text) : Prop := forall r, valid_index ds r -> token (tok r).
Definition positive (ds : list nat) : Prop := Forall (fun d => 0 < d) ds.
Notation item ds tok i := (compact ds (fun idx => tok (Z.of_nat i :: idx))).
Lemma tokens_sub d ds tok i : tokens (d :: ds) tok -> i < d -> tokens ds (fun idx => tok (Z.of_nat i :: idx)).
Proof. intros T Hi r Hr. apply T. constructor; auto. lia. Qed.
Lemma compact_cons d ds tok : compact (d :: ds) tok = c_open :: join [c_comma] (map (fun i => item ds tok i) (seq 0 d)) ++ [c_close].
Proof. reflexivity. Qed.

Lemma nice_compact ds : forall tok, positive ds -> tokens ds tok -> nice (compact ds tok).
Proof.
  induction ds as [|d ds IH]; intros tok Ps T.
  - apply nice_token. apply T. constructor.
  - inversion Ps as [|? ? Hd Ps']; subst. rewrite compact_cons. apply nice_node, nice_join.
    + destruct d; [lia|]. discriminate.
    + apply Forall_map, Forall_forall. intros i Hi. apply in_seq in Hi. apply IH; [exact Ps'|]. apply (tokens_sub T). lia.
Qed.

Lemma count_app x a b : count x (a ++ b) = count x a + count x b.
Proof. unfold count. rewrite filter_app, app_length. reflexivity. Qed.
Lemma count_token x t : special x -> token t -> count x t = 0.
Proof.
  intros Sx T. apply token_ordinary in T. destruct T as [_ F]. unfold count. induction F as [|c t [O _] F IH]; [reflexivity|].
  cbn [filter]. destruct (is x c) eqn:E; [|exact IH]. apply is_eq in E. subst. contradiction.
Qed.
Lemma count_compact ds : forall tok, tokens ds tok -> count c_open (compact ds tok) = count c_close (compact ds tok).
Proof.
  induction ds as [|d ds IH]; intros tok T.
  - unfold compact. cbn [nested]. rewrite !count_token; auto; try (apply special_iff; auto); apply T; constructor.
  - rewrite compact_cons. change (c_open :: ?w) with ([c_open] ++ w). rewrite !count_app.
    assert (G : forall l, Forall (fun w => count c_open w = count c_close w) l -> count c_open (join [c_comma] l) = count c_close (join [c_comma] l)).
    { induction 1 as [|x l Hx F IHl]; [reflexivity|]. destruct l as [|y l]; [exact Hx|].
      change (join [c_comma] (x :: y :: l)) with (x ++ [c_comma] ++ join [c_comma] (y :: l)). rewrite !count_app, Hx, IHl. reflexivity. }
    rewrite G; [cbn; lia|]. apply Forall_map, Forall_forall. intros i Hi. apply in_seq in Hi. apply IH. apply (tokens_sub T). lia.
Qed.

Lemma join_first d ds tok : 0 < d -> exists more, join [c_comma] (map (fun i => item ds tok i) (seq 0 d)) = item ds tok 0 ++ more.
Proof.
  intros H. destruct d as [|d]; [lia|]. cbn [seq map]. rewrite join_tail. eauto.
Qed.
Lemma leading_compact ds : forall tok more, positive ds -> tokens ds tok ->
  exists c r, leading (compact ds tok ++ more) = (length ds, c :: r).
Proof.
  induction ds as [|d ds IH]; intros tok more Ps T.
  - destruct (T []) as [Nn F]; [constructor|]. unfold compact. cbn [nested]. destruct (tok []) as [|c t]; [congruence|].
    exists c, (t ++ more). cbn [app leading]. destruct (F c) as [S1 _]; [left; reflexivity|]. rewrite special_iff in S1.
    assert (is c c_open = false) as -> by (apply is_ne; intros ->; apply S1; auto). reflexivity.
  - inversion Ps as [|? ? Hd Ps']; subst. rewrite compact_cons. destruct (join_first ds tok Hd) as (m & ->).
    cbn [app leading]. rewrite is_refl. rewrite <- !app_assoc.
    destruct (IH (fun idx => tok (Z.of_nat 0 :: idx)) (m ++ [c_close] ++ more) Ps') as (c & r & ->); [apply (tokens_sub T); lia|].
    exists c, r. reflexivity.
Qed.

(** ** The scan *)
Fixpoint scan_m (s : text) (q : scan_state) : outcome scan_state :=
  match s with [] => Ok q | c :: s' => q' <- scan_char true c q ;; scan_m s' q' end.
Lemma scan_app a : forall b q, b <> [] -> scan (a ++ b) q = (q' <- scan_m a q ;; scan b q').
Proof.
  induction a as [|c a IH]; intros b q Nb; [reflexivity|]. cbn [app scan scan_m].
  replace (nonempty (a ++ b)) with true by (destruct a; [destruct b; [congruence|]|]; reflexivity).
  destruct (scan_char true c q); cbn [bind]; auto.
Qed.
Lemma scan_m_app a : forall b q, scan_m (a ++ b) q = (q' <- scan_m a q ;; scan_m b q').
Proof.
  induction a as [|c a IH]; intros b q; [reflexivity|]. cbn [app scan_m]. destruct (scan_char true c q); cbn [bind]; auto.
Qed.

(** extents and flags of the deeper dimensions: either not set and 1, or final *)
Fixpoint agree (ds X : list nat) (Y : list bool) : Prop :=
  match ds, X, Y with
  | [], [], [] => True
  | d :: ds', x :: X', y :: Y' => x = (if y then d else 1) /\ agree ds' X' Y'
  | _, _, _ => False
  end.
Lemma agree_final ds : agree ds ds (repeat true (length ds)).
Proof. induction ds; cbn; auto. Qed.
Lemma agree_start ds : agree ds (repeat 1 (length ds)) (repeat false (length ds)).
Proof. induction ds; cbn; auto. Qed.

Lemma scan_token t : forall q, Forall ordinary t -> exists z, scan_m t q = Ok (mkScan (q_level q) (q_dims q) (q_cur q) (q_set q) z) /\
  (t <> [] -> ordinary z).
Proof.
  induction t as [|c t IH]; intros q F.
  - exists (q_last q). destruct q; split; [reflexivity|congruence].
  - inversion F as [|? ? O F']; subst. cbn [scan_m]. destruct (ordinary_is O) as (A & B & C & _).
    assert (scan_char true c q = Ok (mkScan (q_level q) (q_dims q) (q_cur q) (q_set q) c)) as -> by (unfold scan_char; rewrite A, B, C; reflexivity).
    cbn [bind]. destruct (IH (mkScan (q_level q) (q_dims q) (q_cur q) (q_set q) c) F') as (z & E & Z).
    destruct t as [|c' t].
    + exists c. split; [reflexivity|auto].
    + exists z. cbn [q_level q_dims q_cur q_set] in E. split; [exact E|]. intros _. apply Z. discriminate.
Qed.

Lemma comma_step more lv (A B : list nat) (C : list bool) x X k R y Y z :
  length B = length A -> length C = length A -> lv = Z.of_nat (length A) -> z <> c_open -> z <> c_comma ->
  scan_char more c_comma (mkScan lv (A ++ x :: X) (B ++ k :: R) (C ++ y :: Y) z) =
  Ok (mkScan lv (A ++ (if y then x else x + 1) :: X) (B ++ (k + 1) :: R) (C ++ y :: Y) c_comma).
Proof.
  intros LB LC -> Z1 Z2. unfold scan_char. change (is c_comma c_open) with false. change (is c_comma c_close) with false. rewrite is_refl.
  cbv beta iota zeta. cbn [q_level q_dims q_cur q_set q_last]. apply is_ne in Z1, Z2. rewrite Z1, Z2. cbn [orb error_if bind].
  rewrite to_ix_nat. cbn [bind]. rewrite aget_mid by auto. cbn [bind].
  destruct y.
  - cbn [bind]. rewrite aget_mid by auto. cbn [bind]. rewrite aset_mid by auto. reflexivity.
  - rewrite aget_mid by auto. cbn [bind]. rewrite aset_mid by auto. cbn [bind]. rewrite aget_mid by auto. cbn [bind]. rewrite aset_mid by auto. reflexivity.
Qed.
Lemma close_step more lv (A B : list nat) (C : list bool) d X R y Y z :
  length B = length A -> length C = length A -> lv = Z.of_nat (length A) -> (0 < length A \/ more = false) ->
  scan_char more c_close (mkScan lv (A ++ d :: X) (B ++ d :: R) (C ++ y :: Y) z) =
  Ok (mkScan (lv - 1) (A ++ d :: X) (B ++ 1 :: R) (C ++ true :: Y) c_close).
Proof.
  intros LB LC -> M. unfold scan_char. change (is c_close c_open) with false. rewrite is_refl.
  cbv beta iota zeta. cbn [q_level q_dims q_cur q_set q_last].
  rewrite to_ix_nat. cbn [bind]. rewrite aset_mid by auto. cbn [bind].
  rewrite aget_mid by auto. cbn [bind]. rewrite aget_mid by auto. cbn [bind]. rewrite Nat.eqb_refl. cbn [negb error_if bind].
  rewrite aset_mid by auto. cbn [bind].
  replace ((Z.of_nat (length A) - 1 <? 0)%Z && more)%bool with false; [reflexivity|].
  symmetry. apply andb_false_iff. destruct M as [M|M]; [left; apply Z.ltb_ge; lia|right; exact M].
Qed.

Lemma scan_compact ds : forall tok (A B : list nat) (C : list bool) X Y z0, positive ds -> tokens ds tok ->
  length B = length A -> length C = length A -> agree ds X Y ->
  (* without the closing brace *)
  (forall d ds', ds = d :: ds' -> exists z,
     scan_m (c_open :: join [c_comma] (map (fun i => item ds' tok i) (seq 0 d)))
       (mkScan (Z.of_nat (length A) - 1) (A ++ X) (B ++ repeat 1 (length ds)) (C ++ Y) z0)
     = Ok (mkScan (Z.of_nat (length A)) (A ++ ds) (B ++ d :: repeat 1 (length ds')) (C ++ hd false Y :: repeat true (length ds')) z)) /\
  (0 < length A ->
   exists z, scan_m (compact ds tok) (mkScan (Z.of_nat (length A) - 1) (A ++ X) (B ++ repeat 1 (length ds)) (C ++ Y) z0)
     = Ok (mkScan (Z.of_nat (length A) - 1) (A ++ ds) (B ++ repeat 1 (length ds)) (C ++ repeat true (length ds)) z) /\ z <> c_open /\ z <> c_comma).
Proof.
  induction ds as [|d ds IH]; intros tok A B C X Y z0 Ps T LB LC Ag.
  - split; [discriminate|]. intros _. destruct X; [|contradiction]. destruct Y; [|contradiction].
    destruct (T []) as [Nn F]; [constructor|]. unfold compact. cbn [nested length repeat].
    destruct (@scan_token (tok []) (mkScan (Z.of_nat (length A) - 1) (A ++ []) (B ++ []) (C ++ []) z0)) as (z & E & O); [apply Forall_forall; exact F|].
    exists z. split; [exact E|]. destruct (ordinary_is (O Nn)) as (O1 & _ & O2 & _). rewrite is_ne in O1, O2. auto.
  - destruct X as [|x X]; [contradiction|]. destruct Y as [|y Y]; [contradiction|]. destruct Ag as [Hx Ag].
    inversion Ps as [|? ? Hd Ps']; subst x0 l.
    assert (W : exists z, z <> c_open /\ z <> c_comma /\
      scan_m (c_open :: join [c_comma] (map (fun i => item ds tok i) (seq 0 d)))
       (mkScan (Z.of_nat (length A) - 1) (A ++ x :: X) (B ++ repeat 1 (S (length ds))) (C ++ y :: Y) z0)
     = Ok (mkScan (Z.of_nat (length A)) (A ++ d :: ds) (B ++ d :: repeat 1 (length ds)) (C ++ y :: repeat true (length ds)) z)).
    { cbn [scan_m]. assert (scan_char true c_open (mkScan (Z.of_nat (length A) - 1) (A ++ x :: X) (B ++ repeat 1 (S (length ds))) (C ++ y :: Y) z0)
        = Ok (mkScan (Z.of_nat (length A)) ((A ++ [x]) ++ X) ((B ++ [1]) ++ repeat 1 (length ds)) ((C ++ [y]) ++ Y) c_open)) as ->.
      { unfold scan_char. rewrite is_refl. cbn [q_level q_dims q_cur q_set]. rewrite <- !app_assoc. cbn [app repeat]. do 2 f_equal. lia. }
      cbn [bind].
      assert (G : forall i X' Y' zz (x' : nat) k, i < d -> agree ds X' Y' -> exists z, z <> c_open /\ z <> c_comma /\
        scan_m (item ds tok i) (mkScan (Z.of_nat (length A)) ((A ++ [x']) ++ X') ((B ++ [k]) ++ repeat 1 (length ds)) ((C ++ [y]) ++ Y') zz)
        = Ok (mkScan (Z.of_nat (length A)) ((A ++ [x']) ++ ds) ((B ++ [k]) ++ repeat 1 (length ds)) ((C ++ [y]) ++ repeat true (length ds)) z)).
      { intros i X' Y' zz x' k Hi Ag'.
        destruct (IH (fun idx => tok (Z.of_nat i :: idx)) (A ++ [x']) (B ++ [k]) (C ++ [y]) X' Y' zz Ps') as [_ (z & E & Z1 & Z2)]; auto.
        - apply (tokens_sub T Hi).
        - rewrite !app_length, LB. reflexivity.
        - rewrite !app_length, LC. reflexivity.
        - rewrite app_length. cbn. lia.
        - exists z. split; [exact Z1|]. split; [exact Z2|]. rewrite app_length in E. cbn [length] in E.
          replace (Z.of_nat (length A + 1) - 1)%Z with (Z.of_nat (length A)) in E by lia. exact E. }
      destruct d as [|n]; [lia|]. cbn [seq map]. rewrite join_tail, scan_m_app.
      destruct (G 0 X Y c_open x 1 ltac:(lia) Ag) as (z1 & Z1 & Z2 & E1). cbn [Z.of_nat] in E1 |- *. rewrite E1. cbn [bind].
      (* the remaining items *)
      assert (R : forall m j zz x' k, j + m = S n -> x' = (if y then S n else j) -> k = j -> zz <> c_open -> zz <> c_comma ->
        exists z, z <> c_open /\ z <> c_comma /\
        scan_m (tail_text (map (fun i => item ds tok i) (seq j m)))
          (mkScan (Z.of_nat (length A)) ((A ++ [x']) ++ ds) ((B ++ [k]) ++ repeat 1 (length ds)) ((C ++ [y]) ++ repeat true (length ds)) zz)
        = Ok (mkScan (Z.of_nat (length A)) (A ++ S n :: ds) (B ++ S n :: repeat 1 (length ds)) (C ++ y :: repeat true (length ds)) z)).
      { induction m as [|m IHm]; intros j zz x' k J Ex Ek Z3 Z4.
        - exists zz. split; [exact Z3|]. split; [exact Z4|]. cbn. rewrite <- !app_assoc. cbn [app]. assert (j = S n) by lia. subst k j.
          assert (x' = S n) as -> by (rewrite Ex; destruct y; reflexivity). reflexivity.
        - cbn [seq map]. unfold tail_text. cbn [map concat]. fold (tail_text (map (fun i => item ds tok i) (seq (S j) m))).
          cbn [app scan_m]. rewrite <- !app_assoc. cbn [app].
          rewrite comma_step by auto. cbn [bind]. rewrite scan_m_app.
          change (A ++ (if y then x' else x' + 1) :: ds) with (A ++ [if y then x' else x' + 1] ++ ds).
          change (B ++ (k + 1) :: repeat 1 (length ds)) with (B ++ [k + 1] ++ repeat 1 (length ds)).
          change (C ++ y :: repeat true (length ds)) with (C ++ [y] ++ repeat true (length ds)). rewrite !app_assoc.
          destruct (G j ds (repeat true (length ds)) c_comma (if y then x' else x' + 1) (k + 1) ltac:(lia) (agree_final ds)) as (z2 & Z5 & Z6 & E2).
          rewrite E2. cbn [bind]. destruct (IHm (S j) z2 (if y then x' else x' + 1) (k + 1)) as (z3 & Z7 & Z8 & E3); auto; try lia.
          { rewrite Ex. destruct y; lia. }
          exists z3. split; [exact Z7|]. split; [exact Z8|]. rewrite E3. rewrite <- !app_assoc. reflexivity. }
      destruct (R n 1 z1 x 1) as (z & Z5 & Z6 & E2); eauto. }
    destruct W as (z & Z1 & Z2 & E). split.
    + intros d1 ds1 Eq. injection Eq as <- <-. exists z. exact E.
    + intros HA. exists c_close. split; [|split; discriminate]. rewrite compact_cons.
      change (c_open :: join [c_comma] (map (fun i => item ds tok i) (seq 0 d)) ++ [c_close])
        with ((c_open :: join [c_comma] (map (fun i => item ds tok i) (seq 0 d))) ++ [c_close]).
      rewrite scan_m_app. cbn [length]. rewrite E. cbn [bind scan_m]. rewrite close_step by auto. reflexivity.
Qed.

Lemma scan_top d ds tok : positive (d :: ds) -> tokens (d :: ds) tok ->
  exists q, scan (compact (d :: ds) tok) (scan_start (S (length ds))) = Ok q /\ q_level q = (-1)%Z /\ q_dims q = d :: ds.
Proof.
  intros Ps T. destruct (@scan_compact (d :: ds) tok [] [] [] (repeat 1 (S (length ds))) (repeat false (S (length ds))) Ascii.zero Ps T)
    as [H _]; auto; [apply (agree_start (d :: ds))|].
  destruct (H d ds eq_refl) as (z & E). rewrite compact_cons.
  change (c_open :: join [c_comma] (map (fun i => item ds tok i) (seq 0 d)) ++ [c_close])
    with ((c_open :: join [c_comma] (map (fun i => item ds tok i) (seq 0 d))) ++ [c_close]).
  rewrite scan_app by discriminate. unfold scan_start. cbn [length app Z.of_nat Z.sub] in E. change (0 - 1)%Z with (-1)%Z in E. rewrite E. cbn [bind scan nonempty].
  pose proof (@close_step false 0%Z [] [] [] d ds (repeat 1 (length ds)) (hd false (repeat false (S (length ds)))) (repeat true (length ds)) z eq_refl eq_refl eq_refl (or_intror eq_refl)) as X.
  cbn [app] in X. rewrite X. eexists. split; [reflexivity|]. split; reflexivity.
Qed.

(** ** The values *)
Section Values.
Variable V : Type.
Variable conv : text -> option (V * text).
Variable dflt : V.
Notation parse := (@parse V conv dflt).

Lemma word_token t s1 : Forall ordinary t -> boundary s1 ->
  word (expand (t ++ s1)) = t /\ after_word (expand (t ++ s1)) = expand s1.
Proof.
  intros F B. rewrite expand_app, (expand_ordinary F). induction F as [|c t O F [IH1 IH2]].
  - cbn [app]. destruct s1 as [|c s1]; [split; reflexivity|]. destruct B as [->| ->]; split; reflexivity.
  - cbn [app word after_word]. destruct (ordinary_is O) as (_ & _ & _ & _ & W). rewrite W, IH1, IH2. split; reflexivity.
Qed.

Lemma parse_compact ds : forall tok f s1, positive ds -> tokens ds tok -> boundary s1 ->
  (forall r, valid_index ds r -> conv (tok r) = Some (f r, [])) ->
  exists f', parse ds (skip (expand (compact ds tok ++ s1))) = Some (f', expand s1) /\ (forall r, valid_index ds r -> f' r = f r).
Proof.
  induction ds as [|d ds IH]; intros tok f s1 Ps T B R.
  - unfold compact. cbn [nested]. rewrite parse_nil. assert (Vn : valid_index [] []) by constructor.
    pose proof (T [] Vn) as Tk. apply token_ordinary in Tk. destruct Tk as [Nn F].
    destruct (word_token F B) as [W1 W2]. destruct (tok []) as [|c t] eqn:Et; [congruence|].
    inversion F as [|? ? O F']; subst. cbn [app] in *. rewrite (skip_ordinary _ O).
    assert (Ex : expand (c :: t ++ s1) = c :: expand (t ++ s1)).
    { destruct (ordinary_is O) as (_ & B1 & B2 & _). rewrite expand_cons, B1, B2. reflexivity. }
    rewrite Ex in W1, W2. unfold extract. cbn [skip_white]. destruct (ordinary_is O) as (_ & _ & _ & _ & W). rewrite W.
    cbv zeta. rewrite W1, W2. pose proof (R [] Vn) as R0. rewrite Et in R0. rewrite R0. eexists. split; [reflexivity|].
    intros r Hr. inversion Hr; subst. reflexivity.
  - inversion Ps as [|? ? Hd Ps']; subst. rewrite compact_cons. cbn [app]. rewrite skip_open, parse_cons. cbn [expect]. rewrite is_refl.
    rewrite <- app_assoc. cbn [app].
    assert (G : forall n j, j + n = d -> 0 < n -> exists fs u,
      items (parse ds) n (expand (join [c_comma] (map (fun i => item ds tok i) (seq j n)) ++ c_close :: s1)) = Some (fs, u) /\
      skip u = c_close :: expand s1 /\ length fs = n /\
      (forall i r, i < n -> valid_index ds r -> nth i fs (fun _ => dflt) r = f (Z.of_nat (j + i) :: r))).
    { induction n as [|n IHn]; intros j J Hn; [lia|]. cbn [seq map]. rewrite join_tail, <- app_assoc. cbn [items].
      destruct (IH (fun idx => tok (Z.of_nat j :: idx)) (fun idx => f (Z.of_nat j :: idx)) (tail_text (map (fun i => item ds tok i) (seq (S j) n)) ++ c_close :: s1) Ps') as (f' & E & Hf).
      - apply (tokens_sub T). lia.
      - destruct n; cbn; auto.
      - intros r Hr. apply R. constructor; auto. lia.
      - rewrite E. destruct n as [|n].
        + exists [f'], (expand (c_close :: s1)). cbn [items seq map tail_text concat app]. split; [reflexivity|]. split; [reflexivity|]. split; [reflexivity|].
          intros [|i] r Hi Hr; [|lia]. cbn [nth]. rewrite Nat.add_0_r. apply Hf. exact Hr.
        + destruct (IHn (S j) ltac:(lia) ltac:(lia)) as (fs & u & E2 & Sk & Lf & Hfs).
          assert (Tt : expand (tail_text (map (fun i => item ds tok i) (seq (S j) (S n))) ++ c_close :: s1)
                     = c_space :: expand (join [c_comma] (map (fun i => item ds tok i) (seq (S j) (S n))) ++ c_close :: s1)).
          { cbn [seq map]. rewrite join_tail. unfold tail_text at 1. cbn [map concat]. reflexivity. }
          rewrite Tt.
          assert (Sp : forall t, items (parse ds) (S n) (c_space :: t) = items (parse ds) (S n) t) by reflexivity.
          rewrite Sp, E2. exists (f' :: fs), u. split; [reflexivity|]. split; [exact Sk|]. split; [cbn; congruence|].
          intros [|i] r Hi Hr; cbn [nth].
          * rewrite Nat.add_0_r. apply Hf. exact Hr.
          * rewrite Hfs by (auto; lia). do 2 f_equal. lia. }
    destruct (G d 0 eq_refl Hd) as (fs & u & E & Sk & Lf & Hfs). rewrite E, Sk. cbn [expect]. rewrite is_refl.
    exists (gather_fn dflt fs). split; [reflexivity|]. intros r Hr. inversion Hr as [|i ? r' ? Hi Hr']; subst. cbn [gather_fn].
    rewrite Hfs by (auto; lia). cbn [Nat.add]. rewrite Z2Nat.id by lia. reflexivity.
Qed.
End Values.
