(** CRSMatrix refines a vector of maps; assimilation of a sparsity pattern. *)
From Coq Require Import List Arith ZArith Lia Bool Sorting.Sorted.
From Verif Require Import Base BaseProofs Mem MemProofs ArrayManipProofs BufferManip BufferManipProofs
  Sorted SortedSpec SortedProofs SortedProofs2 SortedProofs3 SortedArraySpec AoA AoASpec AoALayout AoAProofs AoAProofs2 AoAProofs4
  AoS AoSSpec SetsProofs SetsProofs2 AoSProofs Sparsity SparsitySpec SparsityProofs CRS CRSSpec CRSProofs CRSProofs2 CRSProofs3.
From Verif Require ArrayManip.
Import ListNotations.
Set Implicit Arguments.
Unset Strict Implicit.

Section CRS.
Variable W : Type.
Variable chk tw : bool.
Variable add : W -> W -> W.
Variable zero : W.
Variable cmax : Z.
Notation kind := BMalloc.
Notation aoa := (aoa Z W).
Notation matrix := (pattern W).
Notation P := (Z * W)%type.
Notation fv := (@fst Z W).
Notation fw := (@snd Z W).
Notation row := (list P * nat)%type.
Notation rows_t := (list row).
Notation aok := (@aok P Z W fv fw true tw true).
Notation iok := (@iok P Z W).
Notation rowset := (@rowset P Z fv Z.ltb).
Notation rep := (@rep P Z W fv fw true tw true Z.ltb).
Notation mrep := (@mrep W tw).
Notation LWs := (map (@LV W)).
Notation row_map := (row_map W).
Implicit Types a : aoa.
Implicit Types A B L : rows_t.
Implicit Types p : matrix.
Implicit Types M : list row_map.

Lemma mrep_cast p M M' nc : mrep p (M, nc) -> Forall2 (fun S S' : row_map => forall x, S x <-> S' x) M M' -> mrep p (M', nc).
Proof.
  intros ((L & H & F) & E & G) Q. cbn [fst snd] in *. split; [|split; [exact E|]]; cbn [fst snd].
  - exists L. split; auto. clear -F Q. revert M' Q. induction F; intros M' Q; inversion Q; subst; constructor; auto. eapply rowset_ext; eauto.
  - intros S x I Sx. clear -Q G I Sx. induction Q as [|S0 S1 M M' E F IH]; [destruct I|]. destruct I as [<-|I].
    + apply (G S0); [left; auto|]. destruct Sx as [w H]. exists w. apply E. exact H.
    + apply IH; auto. intros S2 y I2. apply G. right. auto.
Qed.
Lemma mput_ext M i (S S' : row_map) : (forall x, S x <-> S' x) -> Forall2 (fun S S' : row_map => forall x, S x <-> S' x) (put_at M i S) (put_at M i S').
Proof. intros H. exact (put_ext M i H). Qed.

Notation less := (fun y x : P => (fst y < fst x)%Z).
Lemma mcard_ext (S S' : row_map) n : (forall x, S x <-> S' x) -> cardinal S n -> cardinal S' n.
Proof. intros E (l & N & H & Le). exists l. split; auto. split; auto. intros x. rewrite H. apply E. Qed.
Lemma smallest_ltb c (S : row_map) x : smallest (fun y x => (fst y <? fst x)%Z = true) c S x <-> smallest less c S x.
Proof.
  unfold smallest. split; intros [Sx (n & Ln & C)]; (split; [exact Sx|]); exists n; (split; [exact Ln|]).
  - eapply mcard_ext; [|exact C]. intros y. cbn. rewrite Z.ltb_lt. tauto.
  - eapply mcard_ext; [|exact C]. intros y. cbn. rewrite Z.ltb_lt. tauto.
Qed.
Lemma smallest_whole es k S c x : rowset (es, k) S -> length es <= c -> (smallest less c S x <-> S x).
Proof.
  intros R Le. rewrite <- smallest_ltb. pose proof (rowset_firstn zorder 0 c R) as R'. rewrite firstn_all2 in R' by auto.
  destruct R as [_ R], R' as [_ R']. cbn [fst] in *. rewrite <- R, <- R'. tauto.
Qed.

Lemma mrep_at p M nc i S : mrep p (M, nc) -> nth_error M i = Some S -> exists es k, rowset (es, k) S /\ length es <= nc /\
  numNonZeros chk p i = Ok (length es) /\ nonZeroCapacity chk p i = Ok (length es + k).
Proof.
  intros ((L & [I _] & F) & E & G) N. cbn [fst snd] in *. destruct (f2_at F N) as (A & es & k & B & -> & <- & R & _). exists es, k.
  split; auto. split; [exact (row_le R (mranged_at G N))|]. split; [exact (row_size chk I)|exact (row_capacity chk I)].
Qed.
Lemma msetRow_ok p M nc i S c : mrep p (M, nc) -> nth_error M i = Some S ->
  okb tw (setRowCapacity chk tw true kind p i c) (fun p' => mrep p' (put_at M i (smallest less c S), nc)).
Proof.
  intros PR N. destruct (mrep_at PR N) as (es & k & Rs & Le & _). pose proof PR as (R & E & G). cbn [fst snd] in *.
  unfold setRowCapacity, on_rows, clamp. rewrite E. eapply okb_bind.
  - apply okb_tw. eapply (rep_setCapacity chk zorder); [exact R|exact N].
  - intros a Ra. left. apply oks_ok. eapply mrep_cast with (M := put_at M i (smallest (fun y x => (fst y <? fst x)%Z = true) (if nc <? c then nc else c) S)).
    + split; [exact Ra|]. split; [reflexivity|]. cbn [fst snd]. apply mranged_put; auto. intros x [w [Sw _]]. apply (mranged_at G N). exists w. exact Sw.
    + apply mput_ext. intros x. rewrite smallest_ltb. destruct (Nat.ltb_spec nc c); [|reflexivity].
      rewrite (smallest_whole (c := nc) x Rs) by auto. rewrite (smallest_whole (c := c) x Rs) by lia. reflexivity.
Qed.
Lemma mput_same p M nc i S S' : mrep p (put_at M i S', nc) -> nth_error M i = Some S -> (forall x, S' x <-> S x) -> mrep p (put_at M i S, nc).
Proof. intros R N E. eapply mrep_cast; [exact R|]. apply mput_ext. exact E. Qed.
Lemma mreserveRow_ok p M nc i S c : mrep p (M, nc) -> nth_error M i = Some S ->
  okb tw (reserveRow chk tw true kind p i c) (fun p' => mrep p' (put_at M i S, nc)).
Proof.
  intros R N. destruct (mrep_at R N) as (es & k & Rs & _ & _ & Ec). unfold reserveRow. rewrite Ec. cbn [bind].
  destruct (Nat.leb_spec c (length es + k)) as [Le|Gt].
  - left. apply oks_ok. rewrite (f2_same N). exact R.
  - eapply okb_mono; [eapply msetRow_ok; [exact R|exact N]|]. intros p' R'. eapply mput_same; [exact R'|exact N|].
    intros x. apply (smallest_whole x Rs). lia.
Qed.
Lemma mrows_ok (m : outcome aoa) p M' nc : okb tw m (fun a => rep a M') -> ncols p = nc -> mranged nc M' -> okb tw (on_rows m p) (fun p' => mrep p' (M', nc)).
Proof. intros H E R. unfold on_rows. eapply okb_bind; [exact H|]. intros a Ra. left. apply oks_ok. split; auto. Qed.
Lemma mquiet_ok st' (m : outcome matrix) c M : okb tw m (fun p' => mrep p' st') -> creturns c M (fst st') 0 ->
  okb tw (quiet m) (fun r => mrep (fst r) st' /\ creturns c M (fst st') (snd r)).
Proof. intros H K. unfold quiet. eapply okb_bind; [exact H|]. intros p' R. left. apply oks_ok. auto. Qed.

Notation mnew := (new_sp W chk tw true kind cmax).
Lemma new_mrep nr nc cap : (cmax <? Z.of_nat nc - 1)%Z = false -> oks (mnew nr nc cap) (fun p => mrep p (repeat none nr, nc)).
Proof.
  intros C. unfold new_sp, sp_resize, check_numCols. rewrite C. cbn [error_if bind]. cbn [rows]. eapply oks_bind.
  - exact (@new_rep P Z W fv fw chk true tw true Z.ltb nr cap).
  - intros a R. apply oks_ok. split; [exact R|]. split; auto. intros S x I. apply repeat_spec in I. subst. intros [w []].
Qed.

Notation cstep := (cstep chk tw kind cmax add zero).
Notation crun := (crun chk tw kind cmax add zero).
Notation mat_step := (mat_step add zero cmax).
Lemma cstep_ok c p st : mrep p st -> callowed tw c st ->
  match mat_step c st with
  | Some st' => okb tw (cstep c p) (fun r => mrep (fst r) st' /\ creturns c (fst st) (fst st') (snd r))
  | None => chk = true -> cstep c p = Abort
  end.
Proof.
  destruct st as [M nc]. intros PR Al. pose proof PR as (R & E & G). cbn [fst snd] in R, E, G.
  assert (Bad : forall i, chk = true -> nth_error M i = None -> check_array chk (rows p) i = Abort) by (intros; eapply bad_check; eauto).
  destruct c as [nr nc' cap|nc' caps|n|i n|i c| |i v w|i vs|i v|i vs|v| |i adds|i adds]; cbn [CRSSpec.mat_step CRS.cstep]; unfold on_elem.
  - unfold sp_resize, check_numCols. destruct (cmax <? Z.of_nat nc' - 1)%Z; [reflexivity|]. cbn [error_if bind].
    apply mquiet_ok; [|reflexivity]. eapply okb_bind.
    + apply okb_tw. apply rep_resize. exact R.
    + intros a Ra. left. apply oks_ok. split; [exact Ra|]. split; auto. simpl. unfold resized_to. intros S x I.
      apply in_app_iff in I. destruct I as [I|I]; [apply Al; exact I|]. apply repeat_spec in I. subst. intros [w []].
  - unfold sp_resizeFromRowCapacities, check_numCols. destruct (cmax <? Z.of_nat nc' - 1)%Z; [reflexivity|]. cbn [error_if bind].
    apply mquiet_ok; [|reflexivity]. eapply okb_bind.
    + left. eapply rep_resizeFrom. exact R.
    + intros a Ra. left. apply oks_ok. split; [exact Ra|]. split; auto. simpl. intros S x I.
      apply in_map_iff in I. destruct I as (? & <- & _). intros [w []].
  - apply mquiet_ok; [|reflexivity]. apply mrows_ok; auto. apply okb_tw. apply rep_reserveValues. exact R.
  - destruct (nth_error M i) as [S|] eqn:N.
    + apply mquiet_ok; [|reflexivity]. eapply mreserveRow_ok; eauto.
    + intros C. unfold quiet, reserveRow, nonZeroCapacity, capacityOfArray. rewrite (Bad i C N). reflexivity.
  - destruct (nth_error M i) as [S|] eqn:N.
    + apply mquiet_ok; [|reflexivity]. eapply msetRow_ok; eauto.
    + intros C. unfold quiet, setRowCapacity, on_rows, setCapacityOfArray. rewrite (Bad i C N). reflexivity.
  - apply mquiet_ok; [|reflexivity]. apply mrows_ok; auto. left. apply rep_compress. exact R.
  - destruct (nth_error M i) as [S|] eqn:N.
    + eapply okb_bind; [apply (@insert_rep W chk tw p M nc i S (v, w)); [exact PR|exact N|exact Al]|]. intros [p' r] [R' Pl]. left. apply oks_ok. cbn [fst snd] in *.
      assert (Ex : forall x, inserted S [(v, w)] x <-> (S x \/ (x = (v, w) /\ ~ has S v))).
      { intros x. unfold inserted. cbn [In]. split; [intros [?|[[<-|[]] ?]]; auto|intros [?|[-> ?]]; auto]. }
      split.
      * eapply mrep_cast; [exact R'|]. apply mput_ext. exact Ex.
      * simpl. intros S0 S' m m' N0 N' C C'. rewrite N in N0. injection N0 as <-. rewrite (nth_put _ N) in N'. injection N' as <-.
        apply Pl; auto. eapply mcard_ext; [|exact C']. intros x. symmetry. apply Ex.
    + intros C. unfold crs_insertNonZero, numNonZeros, sizeOfArray. rewrite (Bad i C N). reflexivity.
  - destruct (nth_error M i) as [S|] eqn:N.
    + destruct Al as [Al1 Al2]. eapply okb_mono; [apply (@inserts_rep W chk tw p M nc i S vs); [exact PR|exact N|exact Al1|exact Al2]|]. intros [p' r] [R' Pl]. cbn [fst snd] in *.
      split; [exact R'|].
      simpl. intros S0 S' m m' N0 N' C C'. rewrite N in N0. injection N0 as <-. rewrite (nth_put _ N) in N'. injection N' as <-. apply Pl; auto.
    + intros C. unfold crs_insertNonZeros, numNonZeros, sizeOfArray. rewrite (Bad i C N). reflexivity.
  - destruct (nth_error M i) as [S|] eqn:N.
    + eapply okb_bind; [left; apply remove_rep; [exact PR|exact N]|]. intros [p' r] [R' Pl]. left. apply oks_ok. cbn [fst snd] in *.
      assert (Ex : forall x, removed S [v] x <-> (S x /\ fst x <> v)) by (intros x; unfold removed; simpl; intuition). split.
      * eapply mrep_cast; [exact R'|]. apply mput_ext. exact Ex.
      * simpl. intros S0 S' m m' N0 N' C C'. rewrite N in N0. injection N0 as <-. rewrite (nth_put _ N) in N'. injection N' as <-.
        apply Pl; auto. eapply mcard_ext; [|exact C']. intros x. symmetry. apply Ex.
    + intros C. unfold crs_removeNonZero, numNonZeros, sizeOfArray. rewrite (Bad i C N). reflexivity.
  - destruct (nth_error M i) as [S|] eqn:N.
    + eapply okb_mono; [left; apply removes_rep; [exact PR|exact N|exact Al]|]. intros [p' r] [R' Pl]. cbn [fst snd] in *.
      split; [exact R'|].
      simpl. intros S0 S' m m' N0 N' C C'. rewrite N in N0. injection N0 as <-. rewrite (nth_put _ N) in N'. injection N' as <-. apply Pl; auto.
    + intros C. unfold crs_removeNonZeros, getEntries. rewrite (Bad i C N). reflexivity.
  - apply mquiet_ok; [|reflexivity]. left. apply setValues_rep. exact PR.
  - apply mquiet_ok; [|reflexivity]. left. apply zero_rep; [exact Al|exact PR].
  - destruct (nth_error M i) as [S|] eqn:N.
    + apply mquiet_ok; [|reflexivity]. left. destruct Al as [Al1 Al2]. apply addToRow_rep; eauto.
    + intros C. unfold quiet, addToRow, numNonZeros, sizeOfArray. rewrite (Bad i C N). reflexivity.
  - destruct (nth_error M i) as [S|] eqn:N.
    + apply mquiet_ok; [|reflexivity]. left. apply addUnsorted_rep; eauto.
    + intros C. unfold quiet, addUnsorted, numNonZeros, sizeOfArray. rewrite (Bad i C N). reflexivity.
Qed.
Lemma crun_ok h : forall p st, mrep p st -> cvalid add zero tw cmax h st ->
  match mat_run add zero cmax h st with
  | Some st' => okb tw (crun h p) (fun p' => mrep p' st')
  | None => chk = true -> badb tw (crun h p)
  end.
Proof.
  induction h as [|c h IH]; intros p st R V; cbn [CRSSpec.mat_run CRS.crun]; [left; apply oks_ok; exact R|].
  destruct V as [Al V]. pose proof (cstep_ok R Al) as St. destruct (mat_step c st) as [st1|].
  - assert (K : forall r, mrep (fst r) st1 /\ creturns c (fst st) (fst st1) (snd r) ->
      match mat_run add zero cmax h st1 with
      | Some st' => okb tw (let '(p', _) := (r : matrix * nat) in crun h p') (fun p' => mrep p' st')
      | None => chk = true -> badb tw (let '(p', _) := (r : matrix * nat) in crun h p') end).
    { intros [p1 r1] [R1 _]. apply IH; auto. }
    destruct (mat_run add zero cmax h st1) as [st2|].
    + eapply okb_bind; [exact St|exact K].
    + intros C. eapply okb_bad; [exact St|]. intros r Hr. apply K; auto.
  - intros C. left. rewrite (St C). reflexivity.
Qed.
Lemma mdtor p st : mrep p st -> crs_dtor chk tw kind p = Ok tt.
Proof. intros (R & _). exact (rep_dtor chk R). Qed.

(** ** assimilate *)
Lemma each_row_inv {Y} (f : aoa -> nat -> outcome aoa) (I : list Y -> list Y -> aoa -> Prop) (L : list Y) a :
  numArrays a = length L -> I [] L a ->
  (forall (A : list Y) (x : Y) (B : list Y) a, L = A ++ x :: B -> I A (x :: B) a -> oks (f a (length A)) (I (A ++ [x]) B)) -> oks (each_row f a) (I L []).
Proof.
  intros N H0 Hf. unfold each_row. rewrite N.
  eapply oks_mono; [apply (@oks_for_up aoa (fun i a' => exists A B : list Y, L = A ++ B /\ length A = i /\ I A B a'))|].
  - exists [], L. auto.
  - intros i a' Hi (A & B & -> & <- & Ha). destruct B as [|x B]; [rewrite app_nil_r in Hi; lia|].
    eapply oks_mono; [apply Hf; [reflexivity|exact Ha]|]. intros a2 H2. exists (A ++ [x]), B. rewrite <- app_assoc. split; auto.
    rewrite app_length. split; [simpl; lia|exact H2].
  - intros a' (A & B & E & Ln & Ha). assert (B = []). { apply (f_equal (@length _)) in E. rewrite app_length in E. destruct B; auto. simpl in *. lia. }
    subst B. rewrite app_nil_r in *. subst. exact Ha.
Qed.

Lemma destroys_ok a L : aok a L -> oks (each_row (destroy_row chk tw) a)
  (fun a' => iok a' L /\ lay fv true (vals a') L /\ holds tw (ents a') []).
Proof.
  intros [I [Lv Le]]. destruct (Le eq_refl) as [q Me]. eapply oks_mono.
  - apply (@each_row_inv row _ (fun A B a' => iok a' L /\ lay fv true (vals a') L /\
      mem tw (ents a') (repeat LN (total A) ++ flat fw B ++ repeat LN q)) L a).
    + apply I.
    + split; [exact I|]. split; [exact Lv|exact Me].
    + clear. intros A [r k] B a -> (I & Lv & Me). unfold destroy_row. rewrite (row_size chk I). cbn [bind]. rewrite (row_entries chk I). cbn [bind].
      eapply oks_bind.
      * eapply destroy_ok with (p := repeat LN (total A)) (m := LWs (map fw r)) (s := repeat LN k ++ flat fw B ++ repeat LN q).
        -- eapply mem_cast; [exact Me|]. simpl. unfold cells. cbn [fst snd]. rewrite <- !app_assoc. reflexivity.
        -- rewrite repeat_length, flat_length. reflexivity.
        -- rewrite !map_length. reflexivity.
        -- rewrite Forall_map. apply Forall_forall. discriminate.
      * intros b Mb. apply oks_ok. split; [exact I|]. split; [exact Lv|]. cbn [ents set_ents].
        eapply mem_cast; [exact Mb|]. rewrite total_app. simpl. unfold wid. cbn [fst snd].
        rewrite Nat.add_0_r, !repeat_app, <- !app_assoc. reflexivity.
  - intros a' (I' & Lv' & M'). split; [exact I'|]. split; [exact Lv'|]. simpl in M'. exists (total L + q). simpl.
    rewrite <- repeat_app_add in M'. exact M'.
Qed.

(** The rows of a pattern, every entry being [dflt]. *)
Definition withd (dflt : W) (x : list Z * nat) : row := (map (fun c => (c, dflt)) (fst x), snd x).
Lemma withd_keys d (r : list Z) : map fv (map (fun c => (c, d)) r) = r.
Proof. rewrite map_map. apply map_id. Qed.
Lemma withd_offsets d (L : list (list Z * nat)) n : offsets n (map (withd d) L) = offsets n L.
Proof. revert n. induction L as [|[r k] L IH]; intros n; simpl; auto. unfold wid, withd at 1 2. cbn [fst snd]. rewrite map_length, IH. reflexivity. Qed.
Lemma withd_sizes d (L : list (list Z * nat)) : sizes (map (withd d) L) = sizes L.
Proof. unfold sizes. rewrite map_map. apply map_ext. intros [r k]. simpl. apply map_length. Qed.
Lemma withd_flat d (L : list (list Z * nat)) : flat fv (map (withd d) L) = flat (fun c : Z => c) L.
Proof. induction L as [|[r k] L IH]; simpl; auto. unfold cells. cbn [withd fst snd]. rewrite withd_keys, map_id, IH. reflexivity. Qed.
Lemma withd_total d (L : list (list Z * nat)) : total (map (withd d) L) = total L.
Proof. induction L as [|[r k] L IH]; simpl; auto. rewrite IH. unfold wid. simpl. rewrite map_length. reflexivity. Qed.
Definition defaulted (dflt : W) (S : col_set) : row_map := fun e => S (fst e) /\ snd e = dflt.
Lemma rowset_withd d r k (S : col_set) : @SetsProofs2.rowset Z Z (fun c => c) Z.ltb (r, k) S -> rowset (withd d (r, k)) (defaulted d S).
Proof.
  intros [I R]. split.
  - cbn [withd fst] in *. apply (proj1 (map_key_incr Z.ltb fv _)). rewrite withd_keys. exact I.
  - cbn [withd fst] in *. intros [c w]. unfold defaulted. cbn [fst snd]. rewrite in_map_iff. split.
    + intros (c' & E & H). injection E as -> ->. split; auto. apply R. exact H.
    + intros [H ->]. exists c. split; auto. apply R. exact H.
Qed.

Lemma constructs_ok v n : forall b pc s i0 i, mem tw b (pc ++ repeat LN n ++ s) -> i0 + i = length pc ->
  oks (for_up n (fun i b => construct tw b (i0 + i) v) i b) (fun b' => mem tw b' (pc ++ LWs (repeat v n) ++ s)).
Proof.
  induction n as [|n IH]; intros b pc s i0 i M E; simpl.
  - apply oks_ok. exact M.
  - eapply oks_bind; [eapply construct_ok with (p := pc); [exact M|exact E|exact Logic.I]|].
    intros b' M'. eapply oks_mono; [eapply IH with (pc := pc ++ [LV v]) (s := s)|].
    + eapply mem_cast; [exact M'|]. rewrite <- app_assoc. reflexivity.
    + rewrite app_length. simpl. lia.
    + intros b2 M2. eapply mem_cast; [exact M2|]. rewrite <- app_assoc. reflexivity.
Qed.
Lemma defaults_ok d a (L : list (list Z * nat)) e : @AoAProofs.iok Z Z W a L -> lay (fun c : Z => c) true (vals a) L -> holds tw e [] -> total L <= length e ->
  oks (each_row (default_row chk tw d) (set_ents e a)) (fun a' => aok a' (map (withd d) L) /\ offs a' = offs a).
Proof.
  intros I Lv [q He] Lt. simpl in He. pose proof (mem_length He) as Hl. rewrite repeat_length in Hl. eapply oks_mono.
  - apply (@each_row_inv (list Z * nat) _ (fun (A B : list (list Z * nat)) a' => @AoAProofs.iok Z Z W a' L /\ lay (fun c : Z => c) true (vals a') L /\ offs a' = offs a /\
      mem tw (ents a') (flat fw (map (withd d) A) ++ repeat LN (total B) ++ repeat LN (q - total L))) L (set_ents e a)).
    + apply I.
    + split; [exact I|]. split; [exact Lv|]. split; [reflexivity|]. cbn [ents set_ents]. simpl flat. rewrite app_nil_l, <- repeat_app_add.
      replace (total L + (q - total L)) with q by lia. exact He.
    + clear. intros A [r k] B a' -> (I & Lv & Eo & Me). unfold default_row. unfold getEntries.
      pose proof (row_values (fun c : Z => c) chk I) as Ev. unfold getSetValues in Ev. rewrite Ev. cbn [bind]. rewrite (row_size chk I). cbn [bind].
      eapply oks_bind.
      * eapply constructs_ok with (pc := flat fw (map (withd d) A)) (s := repeat LN k ++ repeat LN (total B) ++ repeat LN (q - total (A ++ (r, k) :: B))).
        -- eapply mem_cast; [exact Me|]. simpl total. unfold wid. cbn [fst snd]. rewrite !repeat_app, <- !app_assoc. reflexivity.
        -- rewrite !flat_length, withd_total. lia.
      * intros b Mb. apply oks_ok. split; [exact I|]. split; [exact Lv|]. split; [exact Eo|]. cbn [ents set_ents].
        eapply mem_cast; [exact Mb|]. rewrite map_app, flat_app. simpl. unfold cells, withd at 2. cbn [fst snd]. rewrite map_map. cbn [snd].
        rewrite app_nil_r, <- !app_assoc. do 2 f_equal. unfold withd. cbn [fst]. rewrite map_map. clear. induction r; simpl; f_equal; auto.
  - intros a' ((N & O & Sz) & [q' Lv'] & Eo & M'). split; [|exact Eo]. split; [split; [|split]|split].
    + rewrite map_length. exact N.
    + rewrite withd_offsets. exact O.
    + rewrite withd_sizes. exact Sz.
    + exists q'. rewrite withd_flat. exact Lv'.
    + intros _. exists (q - total L). exact M'.
Qed.
Lemma assimilate_ok w0 d this src st0 (M : list col_set) nc : mrep this st0 -> prep w0 tw src (M, nc) ->
  oks (crs_assimilate chk tw kind d this src) (fun r =>
    mrep (fst r) (map (defaulted d) M, nc) /\ snd r = mkSP (null_aoa Z W kind) 0 /\
    forall i, nonZeroCapacity chk (fst r) i = nonZeroCapacity chk src i).
Proof.
  intros ((L0 & H0 & F0) & _) ((L & H & F) & E & G). cbn [fst snd] in *. unfold crs_assimilate.
  assert (D : oks (if tw then Ok (rows this) else each_row (destroy_row chk tw) (rows this))
    (fun a' => iok a' L0 /\ lay fv true (vals a') L0 /\ holds tw (ents a') [])).
  { destruct tw eqn:T; [|rewrite <- T in *; apply destroys_ok; exact H0].
    apply oks_ok. destruct H0 as [I0 [Lv0 _]]. split; [exact I0|]. split; [exact Lv0|]. exists (length (ents (rows this))). simpl.
    clear. unfold mem. induction (ents (rows this)); constructor; simpl; auto. }
  eapply oks_bind; [exact D|]. intros a (I0 & Lv0 & He). eapply oks_bind.
  - apply (@BufferManipProofs.reserve_ok W chk tw kind (ents a) [] (valueCapacity (rows src)) He). left. reflexivity.
  - intros e [He' Le']. assert (Pa : AoAProofs.pok fv fw true tw false (set_ents e a) L0).
    { apply aok_pok. split; [exact I0|]. split; [exact Lv0|discriminate]. }
    destruct (AoAProofs2.free_ok chk Pa) as (a1 & Ef & _). rewrite Ef. cbn [bind].
    destruct H as [I [Lv _]].
    assert (Lt : total L <= length e).
    { destruct Lv as [q Mv]. apply mem_length in Mv. rewrite app_length, flat_length in Mv. unfold valueCapacity, capacity in Le'. lia. }
    eapply oks_bind; [apply (@defaults_ok d (rows src) L e I Lv He' Lt)|].
    intros a' [Ha Eo]. apply oks_ok. cbn [fst snd]. split; [|split; [reflexivity|]].
    + split; [|split; [exact E|]]; cbn [fst snd rows].
      * eexists. split; [exact Ha|]. clear -F. induction F as [|[r k] S L M R F IH]; constructor; auto. apply rowset_withd. exact R.
      * intros S x Hi [w Sw]. apply in_map_iff in Hi. destruct Hi as (S0 & <- & Hi). destruct Sw as [Sw _]. exact (G S0 x Hi Sw).
    + intros i. unfold nonZeroCapacity, capacityOfArray, check_array, offset. cbn [rows]. rewrite Eo.
      destruct Ha as [[N' _] _], I as [N _]. rewrite N', N, map_length. reflexivity.
Qed.
End CRS.
