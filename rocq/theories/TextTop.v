(** stringToArray as a whole, operator<< against it, and integers. *)
From Coq Require Import List Arith ZArith NArith Ascii Lia Bool.
From Verif Require Import Base BaseProofs Mem Indexing IndexingSpec Array ArraySpec ArrayProofs ArrayProofs2.
From Verif Require Import Text TextSpec TextMem TextSound TextComplete.
Import ListNotations.
Set Implicit Arguments.
Unset Strict Implicit.

(** ** A nest followed by anything is rejected *)
Lemma scan_more d ds tok s1 : positive (d :: ds) -> tokens (d :: ds) tok -> s1 <> [] ->
  scan (compact (d :: ds) tok ++ s1) (scan_start (S (length ds))) = Abort.
Proof.
  intros Ps T Ns. destruct (@scan_compact (d :: ds) tok [] [] [] (repeat 1 (S (length ds))) (repeat false (S (length ds))) Ascii.zero Ps T)
    as [H _]; auto; [apply (agree_start (d :: ds))|].
  destruct (H d ds eq_refl) as (z & E). rewrite compact_cons.
  change (c_open :: join [c_comma] (map (fun i => item ds tok i) (seq 0 d)) ++ [c_close])
    with ((c_open :: join [c_comma] (map (fun i => item ds tok i) (seq 0 d))) ++ [c_close]).
  rewrite <- app_assoc, scan_app by discriminate. unfold scan_start. cbn [length app Z.of_nat Z.sub] in E.
  change (0 - 1)%Z with (-1)%Z in E. rewrite E. cbn [bind app scan].
  replace (nonempty s1) with true by (destruct s1; [congruence|reflexivity]).
  set (Y := repeat true (length ds)). set (C1 := repeat 1 (length ds)). unfold scan_char.
  change (is c_close c_open) with false. rewrite is_refl. cbv beta iota zeta. cbn [q_level q_dims q_cur q_set q_last].
  change (to_ix 0) with (Ok 0). cbn [bind]. unfold aset, aget. cbn [length Nat.ltb Nat.leb nth_error bind].
  rewrite Nat.eqb_refl. reflexivity.
Qed.

(** ** Scanning keeps the number of dimensions, and goes outside the arrays only in a nest too deep *)
Lemma scan_lengths s : forall q qf, scan s q = Ok qf -> length (q_dims qf) = length (q_dims q).
Proof.
  induction s as [|c s IH]; intros q qf H; [injection H as ->; reflexivity|]. cbn [scan] in H.
  destruct (scan_char (nonempty s) c q) as [q'| |] eqn:E; try discriminate. cbn [bind] in H. rewrite (IH _ _ H). clear H.
  destruct (char_cases E) as [->|[->|[->|(A & B & C)]]].
  - apply char_open in E. subst q'. reflexivity.
  - apply char_close in E. destruct E as (i & _ & _ & _ & _ & _ & ->). reflexivity.
  - apply char_comma in E. destruct E as (_ & _ & i & _ & _ & _ & ->). cbn [q_dims]. destruct (nth i (q_set q) false); [reflexivity|apply upd_length].
  - apply other_char in E; auto. subst q'. reflexivity.
Qed.

Lemma aset_ok {A} (l : list A) i x : i < length l -> aset l i x = Ok (upd l i x).
Proof. intros H. unfold aset. apply Nat.ltb_lt in H. rewrite H. reflexivity. Qed.
Lemma aget_ok {A} (l : list A) i d : i < length l -> aget l i = Ok (nth i l d).
Proof. intros H. unfold aget. rewrite (nth_error_nth' l d H). reflexivity. Qed.

Lemma occ_cons x c s : occurs x (c :: s) = (if is c x then 1 else 0) + occurs x s.
Proof.
  unfold occurs. cbn [count_occ]. unfold is. destruct (ascii_dec c x) as [->|N].
  - rewrite Ascii.eqb_refl. reflexivity.
  - apply Ascii.eqb_neq in N. rewrite N. reflexivity.
Qed.
Lemma occ_app x a b : occurs x (a ++ b) = occurs x a + occurs x b.
Proof. unfold occurs. apply count_occ_app. Qed.

Section Scan.
Variable N : nat.
Definition lens (q : scan_state) : Prop := length (q_dims q) = N /\ length (q_cur q) = N /\ length (q_set q) = N.

Lemma char_lens more c q q' : lens q -> scan_char more c q = Ok q' -> lens q'.
Proof.
  intros (A & B & C) E. destruct (char_cases E) as [->|[->|[->|(X & Y & Z)]]].
  - apply char_open in E. subst q'. repeat split; auto.
  - apply char_close in E. destruct E as (i & _ & _ & _ & _ & _ & ->). repeat split; cbn; rewrite ?upd_length; auto.
  - apply char_comma in E. destruct E as (_ & _ & i & _ & _ & _ & ->). repeat split; cbn; rewrite ?upd_length; auto.
    destruct (nth i (q_set q) false); rewrite ?upd_length; auto.
  - apply other_char in E; auto. subst q'. repeat split; auto.
Qed.
Lemma char_level more c q q' : scan_char more c q = Ok q' ->
  q_level q' = (q_level q + (if is c c_open then 1 else 0) - (if is c c_close then 1 else 0))%Z /\
  (is c c_close = true -> more = true -> (0 <= q_level q')%Z).
Proof.
  intros E. destruct (char_cases E) as [->|[->|[->|(X & Y & Z)]]].
  - apply char_open in E. subst q'. rewrite is_refl. change (is c_open c_close) with false. split; [cbn [q_level]; lia|discriminate].
  - pose proof E as E'. apply char_close in E. destruct E as (i & L & B1 & B2 & B3 & B4 & ->). rewrite is_refl. change (is c_close c_open) with false.
    split; [cbn [q_level]; lia|]. intros _ ->. unfold scan_char in E'. rewrite is_refl in E'. change (is c_close c_open) with false in E'. cbv beta iota zeta in E'.
    destruct (to_ix (q_level q)); try discriminate. cbn [bind] in E'. destruct (aset (q_set q) a true); try discriminate. cbn [bind] in E'.
    destruct (aget (q_dims q) a); try discriminate. cbn [bind] in E'. destruct (aget (q_cur q) a); try discriminate. cbn [bind] in E'.
    destruct (error_if (negb (a1 =? a2))); try discriminate. cbn [bind] in E'. destruct (aset (q_cur q) a 1); try discriminate. cbn [bind] in E'.
    destruct (q_level q - 1 <? 0)%Z eqn:Q; [discriminate|]. apply Z.ltb_ge in Q. cbn [q_level]. lia.
  - apply char_comma in E. destruct E as (_ & _ & i & _ & _ & _ & ->). split; [cbn [q_level]; change (is c_comma c_open) with false; change (is c_comma c_close) with false; lia|discriminate].
  - apply other_char in E; auto. subst q'. rewrite X, Y. split; [cbn [q_level]; lia|congruence].
Qed.
Lemma char_fault more c q f : lens q -> (0 <= q_level q)%Z \/ c = c_open -> scan_char more c q = Fault f ->
  f = FOob /\ (Z.of_nat N <= q_level q)%Z.
Proof.
  intros (A & B & C) L E. unfold scan_char in E. destruct (is c c_open) eqn:E1; [discriminate|].
  assert (L' : (0 <= q_level q)%Z) by (destruct L as [L| ->]; [exact L|rewrite is_refl in E1; discriminate]). clear L.
  destruct (Z.lt_ge_cases (q_level q) (Z.of_nat N)) as [Lt|Ge].
  - exfalso. rewrite <- (Z2Nat.id (q_level q)) in E by exact L'. set (i := Z.to_nat (q_level q)) in *. assert (Hi : i < N) by (unfold i; lia).
    destruct (is c c_close).
    + rewrite to_ix_nat in E. cbn [bind] in E. rewrite aset_ok in E by lia. cbn [bind] in E. rewrite (@aget_ok _ (q_dims q) i 0) in E by lia. cbn [bind] in E.
      rewrite (@aget_ok _ (q_cur q) i 0) in E by lia. cbn [bind] in E. destruct (negb _); [discriminate|]. cbn [error_if bind] in E.
      rewrite aset_ok in E by lia. cbn [bind] in E. destruct (_ && _)%bool; discriminate.
    + destruct (is c c_comma); [|discriminate]. destruct (_ || _)%bool; [discriminate|]. cbn [error_if bind] in E.
      rewrite to_ix_nat in E. cbn [bind] in E. rewrite (@aget_ok _ (q_set q) i false) in E by lia. cbn [bind] in E.
      assert (G : forall dims, (k <- aget (q_cur q) i ;; cur <- aset (q_cur q) i (k + 1) ;; Ok (mkScan (Z.of_nat i) dims cur (q_set q) c)) = Fault f -> False).
      { intros dims X. rewrite (@aget_ok _ (q_cur q) i 0) in X by lia. cbn [bind] in X. rewrite aset_ok in X by lia. discriminate. }
      destruct (nth i (q_set q) false).
      * exact (G _ E).
      * rewrite (@aget_ok _ (q_dims q) i 0) in E by lia. cbn [bind] in E. rewrite aset_ok in E by lia. exact (G _ E).
  - split; [|exact Ge]. rewrite <- (Z2Nat.id (q_level q)) in E by exact L'. set (i := Z.to_nat (q_level q)) in *. assert (Hi : N <= i) by (unfold i; lia).
    assert (Gs : forall X (l : list X) x, length l = N -> aset l i x = Fault FOob).
    { intros X l x Hl. unfold aset. destruct (Nat.ltb_spec i (length l)); [lia|reflexivity]. }
    assert (Gg : forall X (l : list X), length l = N -> aget l i = Fault FOob).
    { intros X l Hl. unfold aget. assert (nth_error l i = None) as -> by (apply nth_error_None; lia). reflexivity. }
    destruct (is c c_close).
    + rewrite to_ix_nat in E. cbn [bind] in E. rewrite Gs in E by exact C. cbn in E. congruence.
    + destruct (is c c_comma); [|discriminate]. destruct (_ || _)%bool; [discriminate|]. cbn [error_if bind] in E.
      rewrite to_ix_nat in E. cbn [bind] in E. rewrite Gg in E by exact C. cbn in E. congruence.
Qed.

Lemma scan_fault s : forall q f, lens q -> (0 <= q_level q)%Z \/ (q_level q = -1 /\ hd_error s = Some c_open)%Z -> scan s q = Fault f ->
  f = FOob /\ exists p r, s = p ++ r /\ (Z.of_nat N <= q_level q + Z.of_nat (occurs c_open p) - Z.of_nat (occurs c_close p))%Z.
Proof.
  induction s as [|c s IH]; intros q f Ln L E; [discriminate|]. cbn [scan] in E.
  destruct (scan_char (nonempty s) c q) as [q'| |f'] eqn:Ec; cbn [bind] in E; [|discriminate|].
  - destruct (char_level Ec) as [Lv Cl]. pose proof (char_lens Ln Ec) as Ln'.
    assert (L' : (0 <= q_level q')%Z \/ s = []).
    { destruct s as [|c' s]; [right; reflexivity|left]. destruct (is c c_close) eqn:X; [apply Cl; reflexivity|].
      destruct L as [L|[L Hd]]; [destruct (is c c_open); lia|]. cbn in Hd. injection Hd as ->. rewrite is_refl in Lv. lia. }
    destruct L' as [L'| ->]; [|discriminate].
    destruct (IH q' f Ln' (or_introl L') E) as [Ef (p & r & -> & H)]. split; [exact Ef|]. exists (c :: p), r. split; [reflexivity|].
    rewrite !occ_cons. destruct (is c c_open), (is c c_close); lia.
  - injection E as ->. destruct (@char_fault (nonempty s) c q f Ln) as [Ef H]; auto.
    { destruct L as [L|[_ Hd]]; [left; exact L|right]. cbn in Hd. injection Hd as ->. reflexivity. }
    split; [exact Ef|]. exists [], (c :: s). split; [reflexivity|]. cbn. lia.
Qed.
Lemma start_lens : lens (scan_start N).
Proof. repeat split; apply repeat_length. Qed.

Lemma scan_not_deep s : forall q qf p r, lens q -> scan s q = Ok qf -> q_level qf = (-1)%Z -> s = p ++ r ->
  (Z.of_nat N <= q_level q + Z.of_nat (occurs c_open p) - Z.of_nat (occurs c_close p))%Z -> False.
Proof.
  intros q qf p. revert s q. induction p as [|c p IH]; intros s q r Ln E Lf -> H.
  - cbn in H. destruct Ln as (Ld & _ & Ls). assert (LD : length (q_dims qf) = N) by (rewrite (scan_lengths E); exact Ld).
    apply (@deep N (q_dims qf) LD r q); [exists qf; auto|lia|exact Ls].
  - cbn [app scan] in E. destruct (scan_char (nonempty (p ++ r)) c q) as [q'| |] eqn:Ec; cbn [bind] in E; try discriminate.
    apply (IH _ q' r (char_lens Ln Ec) E Lf eq_refl). destruct (char_level Ec) as [Lv _]. rewrite !occ_cons in H.
    destruct (is c c_open), (is c c_close); lia.
Qed.
End Scan.

(** ** What operator<< prints is delimited and squeezes to the compact form *)
Lemma squeeze_id t : (forall c, In c t -> c <> c_space) -> squeeze t = t.
Proof.
  induction t as [|c t IH]; intros H; [reflexivity|]. cbn [squeeze]. destruct (Ascii.eqb_spec c " "%char) as [E|E].
  - exfalso. apply (H c); [left; reflexivity|exact E].
  - rewrite IH; [reflexivity|]. intros x Hx. apply H. right. exact Hx.
Qed.
Lemma token_no_space t : token t -> forall c, In c t -> c <> c_space.
Proof. intros [_ H] c Hc ->. destruct (H _ Hc) as [A _]. apply A. apply special_iff. tauto. Qed.
Lemma squeeze_join l : squeeze (join [c_comma; c_space] l) = join [c_comma] (map squeeze l).
Proof.
  induction l as [|x l IH]; [reflexivity|]. destruct l as [|y l]; [reflexivity|].
  change (join [c_comma; c_space] (x :: y :: l)) with (x ++ [c_comma; c_space] ++ join [c_comma; c_space] (y :: l)).
  rewrite !squeeze_app, IH. reflexivity.
Qed.
Lemma squeeze_spaced ds : forall tok, tokens ds tok -> squeeze (spaced ds tok) = compact ds tok.
Proof.
  induction ds as [|d ds IH]; intros tok T.
  - apply squeeze_id, token_no_space, T. constructor.
  - unfold spaced. cbn [nested]. rewrite !squeeze_app. rewrite squeeze_join, map_map. rewrite compact_cons. cbn. do 2 f_equal.
    f_equal. apply map_ext_in. intros i Hi. apply in_seq in Hi. apply IH. apply (tokens_sub T). lia.
Qed.

Definition bound (r : text) : Prop := match r with [] => True | c :: r' => c = c_comma \/ (c = c_space /\ exists r'', r' = c_close :: r'') end.
Lemma bound_state r v sp : bound r -> no_space_delimited r v sp = no_space_delimited r false false.
Proof.
  destruct r as [|c r]; [reflexivity|]. intros [->|[-> (r'' & ->)]]; [reflexivity|]. destruct v, sp; reflexivity.
Qed.
Lemma nsd_token t : Forall ordinary t -> forall sp r, t <> [] -> no_space_delimited (t ++ r) false sp = no_space_delimited r true false.
Proof.
  intros F. assert (G : forall r, no_space_delimited (t ++ r) true false = no_space_delimited r true false).
  { induction F as [|c t O F IH]; intros r; [reflexivity|]. cbn [app no_space_delimited]. destruct (ordinary_is O) as (A & B & C & D & _).
    rewrite A, B, C, D. cbn [orb andb error_if bind]. apply IH. }
  intros sp r Nn. destruct F as [|c t O F]; [congruence|]. cbn [app no_space_delimited]. destruct (ordinary_is O) as (A & B & C & D & _).
  rewrite A, B, C, D. cbn [orb andb error_if bind]. specialize (G r). cbn [app no_space_delimited] in G. rewrite A, B, C, D in G.
  cbn [orb andb error_if bind] in G. exact G.
Qed.
Lemma nsd_spaced ds : forall tok sp r, tokens ds tok -> bound r ->
  no_space_delimited (spaced ds tok ++ r) false sp = no_space_delimited r false false.
Proof.
  induction ds as [|d ds IH]; intros tok sp r T B.
  - unfold spaced. cbn [nested]. assert (Tk : token (tok [])) by (apply T; constructor). apply token_ordinary in Tk. destruct Tk as [Nn F].
    rewrite nsd_token by auto. apply bound_state. exact B.
  - unfold spaced. cbn [nested]. rewrite <- !app_assoc. cbn [app no_space_delimited].
    change (is "{"%char c_open) with true. cbn [orb]. change (is " "%char c_open || is " "%char c_comma || is " "%char c_close)%bool with false.
    change (is " "%char c_space) with true. cbv iota.
    set (g := fun i : nat => spaced ds (fun idx => tok (Z.of_nat i :: idx))).
    change (map _ (seq 0 d)) with (map g (seq 0 d)).
    assert (G : forall n j sp, j + n = d -> no_space_delimited (join [","; " "]%char (map g (seq j n)) ++ " "%char :: "}"%char :: r) false sp = no_space_delimited r false false).
    { induction n as [|n IHn]; intros j sp' J; [reflexivity|].
      assert (Tj : tokens ds (fun idx => tok (Z.of_nat j :: idx))) by (apply (tokens_sub T); lia).
      cbn [seq map]. destruct n as [|n].
      - cbn [seq map join]. unfold g. rewrite (IH _ sp' _ Tj); [reflexivity|]. cbn. eauto.
      - cbn [seq map]. change (join [","; " "]%char (g j :: g (S j) :: map g (seq (S (S j)) n)))
          with (g j ++ [","; " "]%char ++ join [","; " "]%char (map g (seq (S j) (S n)))).
        rewrite <- !app_assoc. unfold g at 1. rewrite (IH _ sp' _ Tj) by (cbn; auto). cbn [app no_space_delimited].
        change (is ","%char c_open || is ","%char c_comma || is ","%char c_close)%bool with true.
        change (is " "%char c_open || is " "%char c_comma || is " "%char c_close)%bool with false. change (is " "%char c_space) with true. cbv iota.
        apply IHn. lia. }
    apply (G d 0 true eq_refl).
Qed.
Lemma delimited_spaced ds tok : tokens ds tok -> delimited (spaced ds tok).
Proof. intros T. apply delim_iff. rewrite <- (app_nil_r (spaced ds tok)). rewrite nsd_spaced; [reflexivity|exact T|exact Logic.I]. Qed.

(** ** The whole function *)
Section Top.
Variable V : Type.
Variable conv : text -> option (V * text).
Variable chk triv : bool.
Variable perm : list nat.
Variable dflt : V.
Hypothesis P : is_permutation perm (length perm).
Hypothesis NZ : 0 < length perm.
Notation BMalloc := BufferManip.BMalloc.
Notation stringToArray := (stringToArray conv chk triv BMalloc perm dflt).
Notation arr_ok := (arr_ok triv perm).
Notation NDIM := (length perm).
Notation at_ := (Array.at_ chk perm).
Notation resize_dims := (resize_dims chk triv BMalloc perm dflt).

Lemma resize_nat a vs dims : arr_ok a vs -> length dims = NDIM ->
  exists a' vs', resize_dims a (map Z.of_nat dims) = Ok a' /\ arr_ok a' vs' /\ a_dims a' = dims /\ a_rix a' = a_rix a.
Proof.
  intros A L. pose proof A as (La & _).
  destruct (@nstep_ok V chk triv BMalloc perm dflt P NZ (NResize (map Z.of_nat dims)) a vs dims (a_rix a) eq_refl A) as (a' & E & (vs' & A') & D & R).
  - exact Logic.I.
  - cbn [extents]. rewrite map_length, L, La, Nat.eqb_refl.
    replace (forallb (fun d => (0 <=? d)%Z) (map Z.of_nat dims)) with true.
    + rewrite map_map. cbn [andb]. rewrite (map_ext _ (fun x => x)), map_id; [reflexivity|]. intros. apply Nat2Z.id.
    + symmetry. apply forallb_forall. intros x Hx. apply in_map_iff in Hx. destruct Hx as (n & <- & _). apply Z.leb_le. lia.
  - exists a', vs'. auto.
Qed.

Lemma read_whole a vs t : arr_ok a vs ->
  match parse conv dflt (a_dims a) t with
  | None => read conv chk triv NDIM (toSlice perm a) (t, a_buf a) = Abort
  | Some (f, t') => exists b, read conv chk triv NDIM (toSlice perm a) (t, a_buf a) = Ok (t', b) /\ stored chk triv perm a (withb a b) [] (a_dims a) f
  end.
Proof.
  intros A. pose proof A as (L & _). pose proof (@read_parse V conv chk triv perm dflt P NZ (a_dims a) a vs [] (toSlice perm a) t A) as H.
  rewrite L in H. apply H; [|reflexivity]. eapply sub_whole; eauto.
Qed.

Lemma text_eqb_eq a : forall b, text_eqb a b = true <-> a = b.
Proof.
  induction a as [|x a IH]; intros [|y b]; cbn; split; try discriminate; auto.
  - rewrite andb_true_iff, is_eq, IH. intros [-> ->]. reflexivity.
  - intros E. injection E as -> ->. rewrite andb_true_iff, is_eq, IH. auto.
Qed.

Lemma accepts a vs str dims tok f : arr_ok a vs -> length dims = NDIM -> positive dims -> tokens dims tok ->
  (forall r, valid_index dims r -> conv (tok r) = Some (f r, [])) ->
  delimited str -> squeeze str = compact dims tok ->
  exists a', stringToArray a str = Ok a' /\ (exists vs', arr_ok a' vs') /\ a_dims a' = dims /\ a_rix a' = a_rix a /\
    (forall r, valid_index dims r -> at_ a' r = Ok (f r)).
Proof.
  intros A L Ps T R Dl Sq. unfold Text.stringToArray. apply delim_iff in Dl. rewrite Dl. cbn [bind]. rewrite strip_squeeze, Sq.
  destruct dims as [|d ds]; [cbn in L; lia|]. set (s := compact (d :: ds) tok) in *.
  pose proof (nice_compact Ps T) as (N1 & N2 & _). fold s in N1, N2.
  assert (text_eqb s [c_open; c_close] = false) as ->.
  { apply not_true_iff_false. rewrite text_eqb_eq. intros E. rewrite E in N2. discriminate. }
  rewrite N1. cbn [error_if bind]. assert (is (hd Ascii.zero s) c_open = true) as -> by reflexivity. cbn [negb error_if bind].
  pose proof (count_compact T) as Ct. fold s in Ct. rewrite Ct, Nat.eqb_refl, N2. cbn [negb error_if bind].
  destruct (@leading_compact (d :: ds) tok [] Ps T) as (c & r & Le). rewrite app_nil_r in Le. fold s in Le. rewrite Le, L, Nat.eqb_refl. cbn [nonempty negb error_if bind].
  destruct (scan_top Ps T) as (q & Es & Lq & Dq). fold s in Es. change (S (length ds)) with (length (d :: ds)) in Es. rewrite L in Es. rewrite Es. cbn [bind]. rewrite Lq. cbn [Z.eqb negb error_if bind Pos.eqb].
  rewrite Dq. destruct (resize_nat A L) as (a1 & vs1 & -> & A1 & D1 & R1). cbn [bind].
  pose proof (@read_whole a1 vs1 (expand s) A1) as Rd. rewrite D1 in Rd.
  destruct (@parse_compact V conv dflt (d :: ds) tok f [] Ps T Logic.I R) as (f' & Ep & Hf). rewrite app_nil_r in Ep. fold s in Ep.
  assert (skip (expand s) = expand s) as Sk by reflexivity. rewrite Sk in Ep. rewrite Ep in Rd.
  destruct Rd as (b & Er & (D2 & R2 & A2 & F2 & _)). rewrite Er. cbn [bind snd]. eexists. split; [reflexivity|].
  split; [exact A2|]. split; [exact D1|]. split; [exact R1|]. intros idx Hv. rewrite <- (Hf idx Hv). exact (F2 idx Hv).
Qed.

Lemma accepts_empty a str : delimited str -> squeeze str = [c_open; c_close] ->
  stringToArray a str = clear chk triv BMalloc perm dflt a.
Proof.
  intros Dl Sq. unfold Text.stringToArray. apply delim_iff in Dl. rewrite Dl. cbn [bind]. rewrite strip_squeeze, Sq. reflexivity.
Qed.

(** The checks in front of the scan, undone. *)
Lemma checks a str o : stringToArray a str = o -> o <> Abort ->
  delimited str /\
  ((squeeze str = [c_open; c_close] /\ clear chk triv BMalloc perm dflt a = o) \/
   (let s := squeeze str in
    has_pair c_close c_open s = false /\ hd_error s = Some c_open /\ has_pair c_open c_close s = false /\
    (q <- scan s (scan_start NDIM) ;; _ <- error_if (negb (q_level q =? -1)%Z) ;;
     a' <- resize_dims a (map Z.of_nat (q_dims q)) ;; st <- read conv chk triv NDIM (toSlice perm a') (expand s, a_buf a') ;;
     Ok (mkArray (a_dims a') (a_strides a') (a_rix a') (snd st))) = o)).
Proof.
  intros H No. unfold Text.stringToArray in H. destruct (delim_outcome str false false) as [E|E]; rewrite E in H; cbn [bind] in H; [|congruence].
  split; [apply delim_iff; exact E|]. rewrite strip_squeeze in H. destruct (text_eqb (squeeze str) [c_open; c_close]) eqn:Te.
  { left. apply text_eqb_eq in Te. auto. }
  right. cbv zeta. set (s := squeeze str) in *. destruct (has_pair c_close c_open s); [cbn in H; congruence|]. split; [reflexivity|]. cbn [error_if bind] in H.
  destruct (is (hd Ascii.zero s) c_open) eqn:Eh; [|cbn in H; congruence]. split.
  { destruct s as [|c s']; [discriminate|]. apply is_eq in Eh. cbn in Eh |- *. congruence. }
  cbn [negb error_if bind] in H. destruct (count c_open s =? count c_close s); [|cbn in H; congruence]. cbn [negb error_if bind] in H.
  destruct (has_pair c_open c_close s); [cbn in H; congruence|]. split; [reflexivity|]. cbn [error_if bind] in H.
  destruct (leading s) as [n rest]. destruct (nonempty rest); [|cbn in H; congruence]. cbn [negb error_if bind] in H.
  destruct (n =? NDIM); [|cbn in H; congruence]. exact H.
Qed.

Lemma faults a vs str f : arr_ok a vs -> stringToArray a str = Fault f -> f = FOob /\ too_deep NDIM (squeeze str).
Proof.
  intros A H. apply checks in H; [|discriminate]. destruct H as [_ [[_ H]|(_ & Hd & _ & H)]].
  - exfalso. destruct (@nstep_ok V chk triv BMalloc perm dflt P NZ NClear a vs _ _ eq_refl A Logic.I eq_refl) as (a' & E & _).
    cbn [nstep] in E. congruence.
  - set (s := squeeze str) in *. destruct (scan s (scan_start NDIM)) as [q| |f'] eqn:E; cbn [bind] in H; [|discriminate|].
    + exfalso. destruct (q_level q =? -1)%Z; [|discriminate]. cbn [negb error_if bind] in H.
      assert (L : length (q_dims q) = NDIM) by (rewrite (scan_lengths E); apply repeat_length).
      destruct (resize_nat A L) as (a1 & vs1 & E1 & A1 & D1 & R1). rewrite E1 in H. cbn [bind] in H.
      pose proof (@read_whole a1 vs1 (expand s) A1) as Rd. destruct (parse conv dflt (a_dims a1) (expand s)) as [[g t']|].
      * destruct Rd as (b & Er & _). rewrite Er in H. discriminate.
      * rewrite Rd in H. discriminate.
    + injection H as ->. destruct (@scan_fault NDIM s (scan_start NDIM) f (start_lens NDIM)) as [Ef (p & r & Es & Hp)]; auto.
      split; [exact Ef|]. exists p, r. split; [exact Es|]. cbn [q_level scan_start] in Hp. change (occurs "}"%char p) with (occurs c_close p).
      change (occurs "{"%char p) with (occurs c_open p). lia.
Qed.

Lemma deep_rejected a str a' : too_deep NDIM (squeeze str) -> stringToArray a str = Ok a' -> False.
Proof.
  intros (p & r & Es & Hp) H. apply checks in H; [|discriminate]. destruct H as [_ [[Sq _]|(_ & Hd & _ & H)]].
  - rewrite Sq in Es. apply (f_equal (occurs "{"%char)) in Es. rewrite occ_app in Es. change (occurs "{"%char [c_open; c_close]) with 1 in Es. lia.
  - set (s := squeeze str) in *. destruct (scan s (scan_start NDIM)) as [q| |f'] eqn:E; cbn [bind] in H; try discriminate.
    destruct (q_level q =? -1)%Z eqn:Q; [|discriminate]. apply Z.eqb_eq in Q.
    apply (@scan_not_deep NDIM s (scan_start NDIM) q p r (start_lens NDIM) E Q Es). cbn [q_level scan_start].
    change (occurs "}"%char p) with (occurs c_close p) in Hp. change (occurs "{"%char p) with (occurs c_open p) in Hp. lia.
Qed.

Lemma sound a vs str a' : arr_ok a vs -> stringToArray a str = Ok a' -> takes_prefix conv ->
  (forall c, In c str -> ~ other_white c) ->
  ~ adjacent c_comma c_close (squeeze str) \/ (takes_word conv /\ rejects_brace conv) ->
  delimited str /\
  ((squeeze str = [c_open; c_close] /\ clear chk triv BMalloc perm dflt a = Ok a') \/
   exists dims tok f, length dims = NDIM /\ positive dims /\ squeeze str = compact dims tok /\
     (forall r, valid_index dims r -> token (tok r) /\ conv (tok r) = Some (f r, [])) /\
     (exists vs', arr_ok a' vs') /\ a_dims a' = dims /\ a_rix a' = a_rix a /\
     (forall r, valid_index dims r -> at_ a' r = Ok (f r))).
Proof.
  intros A H TP NW Md. apply checks in H; [|discriminate]. destruct H as [Dl [[Sq H]|(H1 & Hd & H2 & H)]]; split; auto. right.
  set (s := squeeze str) in *. destruct (scan s (scan_start NDIM)) as [q| |f'] eqn:E; cbn [bind] in H; try discriminate.
  destruct (q_level q =? -1)%Z eqn:Q; [|discriminate]. apply Z.eqb_eq in Q. cbn [negb error_if bind] in H.
  assert (L : length (q_dims q) = NDIM) by (rewrite (scan_lengths E); apply repeat_length).
  destruct (resize_nat A L) as (a1 & vs1 & E1 & A1 & D1 & R1). rewrite E1 in H. cbn [bind] in H.
  pose proof (@read_whole a1 vs1 (expand s) A1) as Rd. rewrite D1 in Rd.
  destruct (parse conv dflt (q_dims q) (expand s)) as [[f t']|] eqn:Ep; [|rewrite Rd in H; discriminate].
  destruct Rd as (b & Er & (D2 & R2 & A2 & F2 & _)). rewrite Er in H. cbn [bind snd] in H. injection H as <-.
  assert (Nd : q_dims q <> []) by (intros X; rewrite X in L; cbn in L; lia).
  assert (Hs : exists s', s = c_open :: s') by (destruct s as [|c s']; [discriminate|]; cbn in Hd; injection Hd as ->; eauto).
  assert (NS : exists strict : bool, (strict = false -> takes_word conv /\ rejects_brace conv) /\ (strict = true -> has_pair c_comma c_close s = false)).
  { destruct Md as [Md|Md]; [exists true|exists false]; split; try discriminate; auto. intros _. apply not_true_iff_false. rewrite has_pair_adjacent. exact Md. }
  destruct NS as (strict & MODE & ST).
  assert (At : at_text strict NDIM (q_dims q) 0 s (scan_start NDIM)).
  { assert (Z0 : forall x y, Ascii.zero <> x -> has_pair x y s = false -> has_pair x y (Ascii.zero :: s) = false).
    { intros x y Hx Hp. destruct s as [|c s']; [reflexivity|]. change (has_pair x y (Ascii.zero :: c :: s')) with ((is Ascii.zero x && is c y) || has_pair x y (c :: s'))%bool.
      apply is_ne in Hx. rewrite Hx, Hp. reflexivity. }
    split; [exists q; auto|]. split.
    - split; [apply Z0; [discriminate|exact H1]|]. split; [apply Z0; [discriminate|exact H2]|]. split; [intros St; apply Z0; [discriminate|auto]|].
      cbn [scan_start q_last]. constructor.
      + split; [discriminate|]. unfold other_white. cbn. lia.
      + apply Forall_forall. intros c Hc. apply squeeze_in in Hc. destruct Hc as [Hc Hn]. auto.
    - unfold inv, scan_start. cbn [q_level q_dims q_cur q_set]. rewrite !repeat_length. repeat split; auto. intros k Hk. rewrite (nth_indep _ 0 1) by (rewrite repeat_length; lia). apply nth_repeat. }
  destruct Hs as (s' & Hs'). rewrite <- (app_nil_l (q_dims q)) in Ep at 1. cbn [app] in Ep.
  assert (Sk : skip (expand s) = expand s) by (rewrite Hs'; reflexivity). rewrite <- Sk in Ep.
  destruct (@nest_sound V conv dflt TP strict MODE NDIM (q_dims q) L (q_dims q) 0 s (scan_start NDIM) f t') as (tok & s1 & q1 & Es & _ & _ & _ & _ & Rs & Ps); auto.
  { rewrite Hs'. discriminate. }
  exists (q_dims q), tok, f. split; [exact L|]. split; [exact Ps|]. split.
  - destruct s1 as [|c1 s1]; [rewrite app_nil_r in Es; exact Es|]. exfalso.
    destruct (q_dims q) as [|d ds] eqn:Dq; [congruence|].
    assert (T : tokens (d :: ds) tok) by (intros r Hr; apply (Rs r Hr)).
    pose proof (@scan_more d ds tok (c1 :: s1) Ps T ltac:(discriminate)) as X. rewrite <- Es in X. cbn [length] in L. rewrite L in X. congruence.
  - split; [exact Rs|]. split; [exact A2|]. split; [exact D1|]. split; [exact R1|]. intros r Hr. exact (F2 r Hr).
Qed.
End Top.

(** ** Integers *)
Section Integers.
Local Open Scope Z_scope.
Definition is_digit (c : ascii) : Prop := exists d, digit_of c = Some d.
Lemma digit_char d : 0 <= d <= 9 -> digit_of (char_of d) = Some d.
Proof.
  intros H. unfold digit_of, char_of. rewrite N_ascii_embedding by lia. rewrite Z2N.id by lia.
  destruct (Z.leb_spec 48 (d + 48)); [|lia]. destruct (Z.leb_spec (d + 48) 57); [|lia]. cbn [andb]. f_equal. lia.
Qed.
Lemma digits_digit fuel : forall n, 0 <= n -> Forall is_digit (digits fuel n).
Proof.
  induction fuel as [|k IH]; intros n H; [constructor|]. cbn [digits]. destruct (Z.ltb_spec n 10).
  - constructor; [|constructor]. exists n. apply digit_char. lia.
  - apply Forall_app. split; [apply IH; apply Z.div_pos; lia|]. constructor; [|constructor]. exists (n mod 10). apply digit_char.
    pose proof (Z.mod_pos_bound n 10). lia.
Qed.
Lemma digits_nonempty fuel n : digits (S fuel) n <> [].
Proof. cbn [digits]. destruct (n <? 10); [discriminate|]. intros H. apply app_eq_nil in H. destruct H. discriminate. Qed.
Lemma digits_read fuel : forall n, 0 <= n < 2 ^ Z.of_nat fuel -> exists k, forall acc r, read_digits (digits fuel n ++ r) acc = read_digits r (acc * k + n).
Proof.
  induction fuel as [|m IH]; intros n H.
  - exists 1. intros acc r. cbn in H. assert (n = 0) by lia. subst. cbn [digits app]. f_equal. lia.
  - cbn [digits]. destruct (Z.ltb_spec n 10).
    + exists 10. intros acc r. cbn [app read_digits]. rewrite digit_char by lia. f_equal. lia.
    + destruct (IH (n / 10)) as (k & E).
      { split; [apply Z.div_pos; lia|]. rewrite Nat2Z.inj_succ, Z.pow_succ_r in H by lia. apply Z.div_lt_upper_bound; lia. }
      exists (k * 10). intros acc r. rewrite <- app_assoc, E. cbn [app read_digits]. pose proof (Z.mod_pos_bound n 10). rewrite digit_char by lia.
      f_equal. pose proof (Z.div_mod n 10). lia.
Qed.
Lemma digits_of_read n : 0 <= n -> read_nat (digits_of n) = Some (n, []).
Proof.
  intros H. unfold digits_of. set (fuel := Z.to_nat (Z.log2 n)).
  pose proof (digits_digit (S fuel) H) as F. pose proof (@digits_nonempty fuel n) as Ne.
  destruct (@digits_read (S fuel) n) as (k & E).
  { split; [exact H|]. destruct (Z.eq_dec n 0) as [->|]; [apply Z.pow_pos_nonneg; lia|].
    pose proof (Z.log2_spec n ltac:(lia)). unfold fuel. rewrite Nat2Z.inj_succ, Z2Nat.id by apply Z.log2_nonneg. lia. }
  specialize (E 0 []). rewrite app_nil_r in E. cbn [read_digits] in E. rewrite Z.mul_0_l, Z.add_0_l in E.
  destruct (digits (S fuel) n) as [|c t]; [congruence|]. inversion F as [|? ? (d & Hd) _]; subst. unfold read_nat. rewrite Hd, E. reflexivity.
Qed.
Lemma digit_ordinary c : is_digit c -> ordinary c /\ c <> "-"%char /\ c <> "+"%char.
Proof.
  intros (d & H). assert (B : (48 <= N_of_ascii c <= 57)%N).
  { unfold digit_of in H. destruct (Z.leb_spec 48 (Z.of_N (N_of_ascii c))); [|discriminate]. destruct (Z.leb_spec (Z.of_N (N_of_ascii c)) 57); [|discriminate]. lia. }
  split; [split|split].
  - rewrite special_iff. intros [->|[->|[->| ->]]]; cbn in B; lia.
  - unfold other_white. lia.
  - intros ->. cbn in B. lia.
  - intros ->. cbn in B. lia.
Qed.
Lemma digits_token n : 0 <= n -> token (digits_of n).
Proof.
  intros H. apply token_ordinary. split; [apply digits_nonempty|]. eapply Forall_impl; [|apply digits_digit; exact H]. intros c Hc. apply (digit_ordinary Hc).
Qed.
Lemma print_int_token z : token (print_int z).
Proof.
  unfold print_int. destruct (Z.ltb_spec z 0); [|apply digits_token; lia].
  destruct (@digits_token (- z) ltac:(lia)) as [_ F]. split; [discriminate|]. intros c [<-|Hc]; [|apply F; exact Hc].
  split; [rewrite special_iff; intros [X|[X|[X|X]]]; discriminate|unfold other_white; cbn; lia].
Qed.
Lemma conv_print lo hi z : lo <= z <= hi -> conv_int lo hi (print_int z) = Some (z, []).
Proof.
  intros R. assert (Rb : ((lo <=? z) && (z <=? hi))%bool = true) by (apply andb_true_iff; split; apply Z.leb_le; lia).
  unfold print_int. destruct (Z.ltb_spec z 0).
  - unfold conv_int. rewrite is_refl. rewrite digits_of_read by lia. rewrite Z.opp_involutive, Rb. reflexivity.
  - unfold conv_int. destruct (digits_of z) as [|c t] eqn:E; [exfalso; revert E; apply digits_nonempty|].
    pose proof (@digits_digit (S (Z.to_nat (Z.log2 z))) z ltac:(lia)) as F. fold (digits_of z) in F. rewrite E in F. inversion F as [|? ? D _]; subst.
    destruct (digit_ordinary D) as (_ & A & B). apply is_ne in A, B. rewrite A, B, <- E, digits_of_read by lia. rewrite Rb. reflexivity.
Qed.
Lemma read_digits_suffix t : forall acc n l, read_digits t acc = (n, l) -> exists u, t = u ++ l.
Proof.
  induction t as [|c t IH]; intros acc n l H; cbn in H; [injection H as <- <-; exists []; reflexivity|].
  destruct (digit_of c); [|injection H as <- <-; exists []; reflexivity]. destruct (IH _ _ _ H) as (u & ->). exists (c :: u). reflexivity.
Qed.
Lemma read_nat_suffix t n l : read_nat t = Some (n, l) -> exists u, u <> [] /\ t = u ++ l.
Proof.
  unfold read_nat. destruct t as [|c t]; [discriminate|]. destruct (digit_of c) eqn:E; [|discriminate]. intros H. injection H as H.
  cbn [read_digits] in H. rewrite E in H. apply read_digits_suffix in H. destruct H as (u & ->). exists (c :: u). split; [discriminate|reflexivity].
Qed.
Lemma conv_int_prefix lo hi : takes_prefix (conv_int lo hi).
Proof.
  intros w v w' H. unfold conv_int in H. destruct w as [|c t]; [discriminate|].
  assert (G : forall n l, (if ((lo <=? n) && (n <=? hi))%bool then Some (n, l) else None) = Some (v, w') -> l = w').
  { intros n l X. destruct (_ && _)%bool; [|discriminate]. congruence. }
  destruct (is c "-"%char); [|destruct (is c "+"%char)].
  - destruct (read_nat t) as [[n l]|] eqn:E; [|discriminate]. apply G in H. subst. apply read_nat_suffix in E. destruct E as (u & _ & ->). exists (c :: u). split; [discriminate|reflexivity].
  - destruct (read_nat t) as [[n l]|] eqn:E; [|discriminate]. apply G in H. subst. apply read_nat_suffix in E. destruct E as (u & _ & ->). exists (c :: u). split; [discriminate|reflexivity].
  - destruct (read_nat (c :: t)) as [[n l]|] eqn:E; [|discriminate]. apply G in H. subst. apply read_nat_suffix in E. destruct E as (u & Nu & Eu). eauto.
Qed.
End Integers.
Lemma conv_string_word : takes_prefix conv_string /\ takes_word conv_string.
Proof.
  split; intros w v w' H; destruct w as [|c t]; try discriminate; cbn in H; injection H as <- <-.
  - exists (c :: t). split; [discriminate|]. rewrite app_nil_r. reflexivity.
  - split; [discriminate|reflexivity].
Qed.
