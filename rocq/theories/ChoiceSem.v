(** Patterns of fields that may overlap (SpecChoice.v): what they mean, and which of the ways to
    match comes first. *)
From Coq Require Import ZArith NArith List Bool Lia Sorting.Sorted ZifyBool ZifyNat ZifyN.
From Verif Require Import Base Text Ast Builder Engine Spec SpecProofs SpecEnd Tree Den Checker AstProofs Mono Supported Heads Families End EndD SpecFields SpecChoice Fields FieldsPre.
Import ListNotations.
Open Scope nat_scope.

(** * As patterns of Spec.v *)
Definition cq (c : choice) : quant :=
  if ch_lazy c then match f_am (ch_f c) with Plus => QQ QPlus Lz | _ => QQ QStar Lz end else am_quant (f_am (ch_f c)).
Definition cone (c : choice) : sq := SCons (AEl (f_el (ch_f c))) (cq c) SNil.
Fixpoint csq (cs : list choice) (g : nat) : sq :=
  match cs with
  | [] => SNil
  | c :: r => if f_cap (ch_f c) then SCons (ACap g (ROne (Br false (cone c)))) Q1 (csq r (S g))
              else SCons (AEl (f_el (ch_f c))) (cq c) (csq r g)
  end.
Definition crx (a : bool) (cs : list choice) : rx := ROne (Br a (csq cs 0)).
Definition cok (c : choice) : bool := fok (ch_f c) && (negb (ch_lazy c) || is_run (ch_f c)).
Definition cokl (cs : list choice) : bool := forallb cok cs.
Lemma cok_fok c : cok c = true -> fok (ch_f c) = true.
Proof. unfold cok. rewrite andb_true_iff. tauto. Qed.
Lemma cok_lazy c : cok c = true -> ch_lazy c = true -> is_run (ch_f c) = true.
Proof. unfold cok. rewrite andb_true_iff. intros [_ H] L. rewrite L in H. exact H. Qed.
Lemma cq_bounds c n : cok c = true -> (in_bounds (cq c) n <-> in_bounds (am_quant (f_am (ch_f c))) n).
Proof.
  intro K. unfold cq. destruct (ch_lazy c) eqn:Lz; [|tauto]. pose proof (cok_lazy c K Lz) as R. unfold is_run in R.
  destruct (f_am (ch_f c)); try discriminate R; cbn [am_quant in_bounds]; tauto.
Qed.
Lemma cq_ok c : cok c = true -> quant_ok (cq c) = true.
Proof. intro K. pose proof (proj2 (fok_eok _ (cok_fok c K))) as Q. unfold cq. destruct (ch_lazy c); [|exact Q]. destruct (f_am (ch_f c)); reflexivity. Qed.
Lemma show_cq c : cok c = true -> show_quant (cq c) = show_amount (f_am (ch_f c)) ++ (if ch_lazy c then [c_quest] else []).
Proof.
  intro K. unfold cq. destruct (ch_lazy c) eqn:Lz; [|now rewrite show_am, app_nil_r]. pose proof (cok_lazy c K Lz) as R. unfold is_run in R.
  destruct (f_am (ch_f c)); try discriminate R; reflexivity.
Qed.
Lemma show_csq cs : forall g, cokl cs = true -> show_sq (csq cs g) = show_choices cs.
Proof.
  induction cs as [|c cs IH]; intros g H; [reflexivity|]. cbn [cokl forallb] in H. apply andb_true_iff in H as [A B].
  unfold show_choices. cbn [csq flat_map]. fold (show_choices cs). unfold show_choice. destruct (f_cap (ch_f c)).
  - cbn [show_sq show_atom show show_br cone show_quant]. rewrite IH, (show_cq c A) by exact B. cbn [app]. now rewrite app_nil_r.
  - cbn [show_sq show_atom]. rewrite IH, (show_cq c A) by exact B. now rewrite !app_assoc.
Qed.
Lemma csq_nocap cs : existsb f_cap (fields cs) = false -> forall g h, csq cs g = csq cs h.
Proof.
  induction cs as [|f r IH]; intros H g h; [reflexivity|]. cbn in H. apply orb_false_iff in H as [A B]. cbn [csq]. rewrite A. f_equal. now apply IH.
Qed.
Lemma renumber_csq cs : forall g seen, (seen = false -> g = 0) -> counted seen (fields cs) = true -> renumber_sq (csq cs g) g = csq cs g.
Proof.
  induction cs as [|c cs IH]; intros g seen Hs C; [reflexivity|]. cbn [fields map counted] in C. fold (fields cs) in C. apply andb_true_iff in C as [C1 C2]. cbn [csq]. destruct (f_cap (ch_f c)) eqn:F.
  - cbn [renumber_sq renumber_atom after_atom cone renumber_in renumber_br]. rewrite Nat.add_1_r. f_equal. apply (IH (S g) true); [discriminate|].
    now rewrite orb_true_r in C2.
  - cbn [renumber_sq renumber_atom]. f_equal. rewrite orb_false_r in C2.
    unfold bare_class in C1. rewrite F in C1. cbn [negb andb] in C1.
    destruct (f_el (ch_f c)) as [a|a| |neg items|a b d|a b]; cbn [after_atom]; try (apply (IH g seen Hs C2)).
    cbn [negb orb] in C1. apply orb_true_iff in C1 as [C1|C1].
    + apply negb_true_iff in C1. subst seen. rewrite (Hs eq_refl). apply (IH 0 false); auto.
    + apply negb_true_iff in C1. rewrite (csq_nocap cs C1 g 0). destruct seen; [|apply (IH 0 false); auto].
      assert (K : forall h, renumber_sq (csq cs 0) h = csq cs 0); [|apply K]. clear -C1. induction cs as [|f fs IH]; intro h; [reflexivity|]. cbn in C1. apply orb_false_iff in C1 as [A B].
      cbn [csq]. rewrite A. cbn [renumber_sq renumber_atom]. f_equal. now apply IH.
Qed.
Lemma renumber_crx a cs : counted false (fields cs) = true -> renumber (crx a cs) = crx a cs.
Proof. intro C. unfold renumber, crx. cbn [renumber_in renumber_br]. now rewrite (renumber_csq cs 0 false). Qed.
Definition ccap (cs : list choice) : nat := ncap (fields cs).
Lemma ccap_cons c cs : ccap (c :: cs) = if f_cap (ch_f c) then S (ccap cs) else ccap cs.
Proof. unfold ccap, ncap. cbn [fields map filter]. now destruct (f_cap (ch_f c)). Qed.
Lemma caps_csq cs : forall g, caps_sq (csq cs g) = seq g (ccap cs).
Proof.
  induction cs as [|c cs IH]; intro g; [reflexivity|]. rewrite ccap_cons. cbn [csq]. destruct (f_cap (ch_f c)); cbn [caps_sq caps_atom caps caps_br cone length seq app]; [|apply IH].
  f_equal. apply IH.
Qed.
Lemma sure_csq cs : forall g k, g <= k < g + ccap cs -> existsb (Nat.eqb k) (sure_sq (csq cs g)) = true.
Proof.
  induction cs as [|c cs IH]; intros g k Hk; [cbn in Hk; lia|]. rewrite ccap_cons in Hk. cbn [csq]. destruct (f_cap (ch_f c)).
  - cbn [sure_sq sure_atom]. cbn [app existsb]. rewrite existsb_app. destruct (Nat.eqb_spec k g); [reflexivity|]. rewrite IH by lia. now rewrite orb_true_r.
  - cbn [sure_sq sure_atom]. destruct (cq c); cbn [app]; [now apply IH|]. destruct (_ =? _)%N; cbn [app]; now apply IH.
Qed.
Lemma crx_caps a cs : caps (crx a cs) = seq 0 (ccap cs).
Proof. cbn [crx caps caps_br]. apply caps_csq. Qed.
Lemma crx_covers a cs : covers (crx a cs) = true.
Proof.
  unfold covers. cbn [crx caps caps_br sure sure_br]. rewrite caps_csq, seq_length. apply forallb_forall. intros k Hk. apply in_seq in Hk. apply sure_csq. lia.
Qed.
Lemma wf_csq cs : forall g, cokl cs = true -> wf_sq (csq cs g) = true.
Proof.
  induction cs as [|c cs IH]; intros g H; [reflexivity|]. cbn [cokl forallb] in H. apply andb_true_iff in H as [A B]. destruct (fok_eok _ (cok_fok c A)) as [E _]. pose proof (cq_ok c A) as Q.
  unfold eok in E. apply andb_true_iff in E as [E _]. cbn [csq]. destruct (f_cap (ch_f c)); cbn [wf_sq wf_atom wf wf_br cone quant_ok]; rewrite E, Q, IH by exact B; reflexivity.
Qed.
Lemma wf_crx a cs : cs <> [] -> cokl cs = true -> wf (crx a cs) = true.
Proof.
  intros N H. unfold crx. cbn [wf wf_br]. pose proof (wf_csq cs 0 H). destruct (csq cs 0) eqn:E; [|assumption].
  destruct cs as [|c cs]; [congruence|]. cbn [csq] in E. destruct (f_cap (ch_f c)); discriminate.
Qed.
Lemma nopos_one c : nopos_sq (cone c) = true.
Proof. unfold cone, cq. cbn [nopos_sq nopos_atom]. destruct (ch_lazy c), (f_am (ch_f c)); reflexivity. Qed.
Lemma nopos_crx a cs : nopos (crx a cs) = true.
Proof.
  assert (S : forall cs g, nopos_sq (csq cs g) = true).
  { clear. induction cs as [|c cs IH]; intro g; [reflexivity|]. cbn [csq]. pose proof (nopos_one c) as H. unfold cone in H. cbn [nopos_sq nopos_atom] in H.
    destruct (f_cap (ch_f c)); cbn [nopos_sq nopos_atom nopos nopos_br cone]; rewrite IH; [rewrite H; reflexivity|]. rewrite andb_true_r in *. exact H. }
  unfold crx. cbn [nopos nopos_br]. apply S.
Qed.

(** * The ways to match one field, in order *)
Section M.
Variable w : str.
Notation L := (length w).
Definition pref (lazy : bool) (a b : cfg) : Prop := if lazy then fst a <= fst b else fst b <= fst a.
Definition sorted (lazy : bool) (a : outs) : Prop := forall c, StronglySorted (pref lazy) (a c).
Lemma sorted_det z a : FieldsPre.det a -> sorted z a.
Proof. intros D c. destruct (D c) as [->|(y & ->)]; repeat constructor. Qed.
Lemma sorted_seq z a b : FieldsPre.det a -> sorted z b -> sorted z (seq_o a b).
Proof. intros D B c. unfold seq_o. destruct (D c) as [->|(y & ->)]; [constructor|]. cbn [flat_map]. rewrite app_nil_r. apply B. Qed.
Lemma sorted_snoc z l c : StronglySorted (pref z) l -> Forall (fun x => pref z x c) l -> StronglySorted (pref z) (l ++ [c]).
Proof.
  induction 1 as [|x l S IH Fx]; intro F; cbn; [repeat constructor|]. inversion F; subst. constructor; [now apply IH|]. apply Forall_app. split; [exact Fx|]. repeat constructor. assumption.
Qed.
Lemma sorted_most a k : FieldsPre.det a -> up a -> sorted false (most_o k a).
Proof.
  intros D U. induction k as [|k IH]; intro c; cbn [most_o]; [repeat constructor|]. apply sorted_snoc.
  - destruct (D c) as [E|(y & E)]; rewrite E; unfold progress; cbn [filter flat_map]; [constructor|]. destruct (negb _); cbn [flat_map]; [rewrite app_nil_r; apply IH|constructor].
  - apply Forall_forall. intros x Hx. apply in_flat_map in Hx as (y & Hy & Hx). apply progress_in in Hy as [Hy _]. pose proof (U _ _ Hy). pose proof (up_most a k U _ _ Hx). cbn. lia.
Qed.
Lemma up_least a k : up a -> up (least_o k a).
Proof.
  intro A. induction k as [|k IH]; intros c c' H; cbn [least_o] in H; [destruct H as [<-|[]]; lia|]. destruct H as [<-|H]; [lia|].
  apply in_flat_map in H as (y & Hy & H). apply progress_in in Hy as [Hy _]. specialize (A _ _ Hy). specialize (IH _ _ H). lia.
Qed.
Lemma sorted_least a k : FieldsPre.det a -> up a -> sorted true (least_o k a).
Proof.
  intros D U. induction k as [|k IH]; intro c; cbn [least_o]; [repeat constructor|]. constructor.
  - destruct (D c) as [E|(y & E)]; rewrite E; unfold progress; cbn [filter flat_map]; [constructor|]. destruct (negb _); cbn [flat_map]; [rewrite app_nil_r; apply IH|constructor].
  - apply Forall_forall. intros x Hx. apply in_flat_map in Hx as (y & Hy & Hx). apply progress_in in Hy as [Hy _]. pose proof (U _ _ Hy). pose proof (up_least a k U _ _ Hx). cbn. lia.
Qed.
Lemma keeps_least a k : keeps a -> keeps (least_o k a).
Proof.
  intro A. induction k as [|k IH]; intros c c' H; cbn [least_o] in H; [destruct H as [<-|[]]; reflexivity|]. destruct H as [<-|H]; [reflexivity|].
  apply in_flat_map in H as (y & Hy & Hx). apply progress_in in Hy as [Hy _]. rewrite (IH _ _ Hx). now apply A.
Qed.
Lemma keeps_cq c P : keeps (quant_o w (cq c) (chr_o w P)).
Proof.
  unfold cq. destruct (ch_lazy c); [|apply keeps_am]. destruct (f_am (ch_f c)); cbn [quant_o rep_o]; auto using keeps_chr, keeps_seq, keeps_pow, keeps_least.
Qed.
Definition qo (c : choice) : outs := quant_o w (cq c) (chr_o w (elem_set (f_el (ch_f c)))).
Lemma sorted_qo c : cok c = true -> sorted (ch_lazy c) (qo c).
Proof.
  intro K. unfold qo, cq. destruct (ch_lazy c) eqn:Lz.
  - pose proof (cok_lazy c K Lz) as R. unfold is_run in R. destruct (f_am (ch_f c)); try discriminate R; cbn [quant_o rep_o]; apply sorted_seq; auto using det_pow, det_chr, sorted_least, up_chr.
  - destruct (f_am (ch_f c)); cbn [am_quant quant_o rep_o].
    + apply sorted_det, det_chr.
    + apply sorted_det. apply det_seq; [apply det_pow, det_chr|]. unfold extra. cbn [kind_min kind_max]. rewrite N.sub_diag.
      match goal with |- FieldsPre.det (most_o ?k _) => assert (k = 0) as -> by lia end. intro x. cbn. right. eauto.
    + apply sorted_seq; auto using det_pow, det_chr, sorted_most, up_chr.
    + apply sorted_seq; auto using det_pow, det_chr, sorted_most, up_chr.
Qed.
Definition cstep (c : choice) (g : nat) : outs := if f_cap (ch_f c) then cap_o g (qo c) else qo c.
Lemma cone_eps c k : sem w (ROne (Br false (cone c))) k = qo c k.
Proof.
  cbn [sem sem_br cone sem_sq sem_atom]. unfold seq_o. fold (qo c). generalize (qo c k). intro l.
  induction l as [|x l IH]; [reflexivity|]. cbn [flat_map]. now rewrite IH.
Qed.
Lemma csem_step c r g k : sem_sq w (csq (c :: r) g) k = seq_o (cstep c g) (sem_sq w (csq r (nextg (ch_f c) g))) k.
Proof.
  unfold cstep, nextg. cbn [csq]. destruct (f_cap (ch_f c)); [|reflexivity].
  cbn [sem_sq quant_o sem_atom]. unfold seq_o. f_equal. unfold cap_o. rewrite <- cone_eps. reflexivity.
Qed.
Definition clog (c : choice) (g i j : nat) (l : list (nat * (nat * nat))) := (if f_cap (ch_f c) then [(g, (i, j))] else []) ++ l.
Lemma cstep_sorted c g : cok c = true -> sorted (ch_lazy c) (cstep c g).
Proof.
  intros K k. unfold cstep. destruct (f_cap (ch_f c)); [|now apply sorted_qo]. unfold cap_o. pose proof (sorted_qo c K k) as S. induction S as [|x l S IH F]; cbn [map]; [constructor|].
  constructor; [exact IH|]. apply Forall_forall. intros y Hy. apply in_map_iff in Hy as (z & <- & Hz). rewrite Forall_forall in F. exact (F z Hz).
Qed.
Lemma qo_part c i l j l' : cok c = true -> In (j, l') (qo c (i, l)) -> i <= L ->
  l' = l /\ exists u, fits (ch_f c) u /\ j = i + length u /\ j <= L /\ firstn (length u) (skipn i w) = u.
Proof.
  intros K H Hi. pose proof (keeps_cq _ _ _ _ H) as Kl. cbn in Kl. split; [exact Kl|]. pose proof (cok_fok c K) as Kf.
  assert (W : wf (ROne (Br false (cone c))) = true).
  { destruct (fok_eok _ Kf) as [E _]. unfold eok in E. apply andb_true_iff in E as [E _]. cbn [wf wf_br cone wf_sq wf_atom]. now rewrite E, (cq_ok c K). }
  assert (S : In (j, l') (sem w (ROne (Br false (cone c))) (i, l))) by (rewrite cone_eps; exact H).
  apply sem_sound in S; [|exact W]. cbn [fst lang lang_br cone lang_sq] in S. destruct S as [_ (m & k & B & P & ->)].
  destruct (run_chars w _ _ _ _ P Hi) as (-> & Bd & F). assert (Ln : length (firstn k (skipn i w)) = k) by (rewrite firstn_length, skipn_length; lia).
  exists (firstn k (skipn i w)). rewrite Ln. split; [apply fits_bounds; [exact Kf|]; rewrite Ln; split; [exact F|]; now apply cq_bounds|]. auto.
Qed.
Lemma part_qo c i l u : cok c = true -> fits (ch_f c) u -> firstn (length u) (skipn i w) = u -> i + length u <= L -> In (i + length u, l) (qo c (i, l)).
Proof.
  intros K F E B. apply fits_bounds in F as [F1 F2]; [|now apply cok_fok]. pose proof (chars_run w _ _ i F1 E) as P.
  assert (X : lang w (ROne (Br false (cone c))) i (i + length u)).
  { cbn [lang lang_br cone lang_sq]. split; [discriminate|]. exists (i + length u), (length u). split; [now apply cq_bounds|]. split; [exact P|reflexivity]. }
  apply (sem_complete w _ i (i + length u) l) in X; [|exact (nopos_one c)|lia]. destruct X as (l' & X). rewrite cone_eps in X. pose proof (keeps_cq _ _ _ _ X) as Kl. cbn in Kl. now subst l'.
Qed.
Lemma cstep_part c g i l j l' : cok c = true -> In (j, l') (cstep c g (i, l)) -> i <= L ->
  l' = clog c g i j l /\ exists u, fits (ch_f c) u /\ j = i + length u /\ j <= L /\ firstn (length u) (skipn i w) = u.
Proof.
  intros K H Hi. unfold cstep, clog in *. destruct (f_cap (ch_f c)); [|now apply qo_part].
  unfold cap_o in H. apply in_map_iff in H as ([j2 l2] & E & H). cbn [fst snd] in E. injection E as <- <-. destruct (qo_part c i l j2 l2 K H Hi) as [-> X]. auto.
Qed.
Lemma part_cstep c g i l u : cok c = true -> fits (ch_f c) u -> firstn (length u) (skipn i w) = u -> i + length u <= L -> In (i + length u, clog c g i (i + length u) l) (cstep c g (i, l)).
Proof.
  intros K F E B. pose proof (part_qo c i l u K F E B) as P. unfold cstep, clog. destruct (f_cap (ch_f c)); [|exact P].
  unfold cap_o. apply in_map_iff. exists (i + length u, l). auto.
Qed.

(** * The first way to match all of them *)
Lemma first_split K l (x : cfg) : Den.first_ok K l = Some x -> exists l1 y l2, l = l1 ++ y :: l2 /\ hd_error (K y) = Some x /\ forall z, In z l1 -> K z = [].
Proof.
  induction l as [|a l IH]; [discriminate|]. rewrite first_cons. destruct (hd_error (K a)) eqn:E.
  - intros [= ->]. exists [], a, l. conj; auto. intros z [].
  - intro H. destruct (IH H) as (l1 & y & l2 & -> & A & B). exists (a :: l1), y, l2. conj; auto. intros z [<-|Hz]; [|now apply B]. destruct (K a); [reflexivity|discriminate].
Qed.
(** [q] is a way to read the fields from [i] on. *)
Definition reads (cs : list choice) (i : nat) (q : list str) : Prop :=
  Forall2 fits (fields cs) q /\ firstn (length (concat q)) (skipn i w) = concat q /\ i + length (concat q) <= L.
Lemma reads_cons c cs i u q : fits (ch_f c) u -> firstn (length u) (skipn i w) = u -> reads cs (i + length u) q -> reads (c :: cs) i (u :: q).
Proof.
  intros F E (A & B & C). unfold reads. cbn [fields map concat]. rewrite app_length. split; [now constructor|]. split; [|lia].
  rewrite (cut_skip w i (length u)), E. rewrite firstn_app. rewrite firstn_all2 by lia. f_equal. replace (length u + length (concat q) - length u) with (length (concat q)) by lia. exact B.
Qed.
Lemma reads_inv c cs i q : reads (c :: cs) i q -> exists u q', q = u :: q' /\ fits (ch_f c) u /\ firstn (length u) (skipn i w) = u /\ i + length u <= L /\ reads cs (i + length u) q'.
Proof.
  intros (A & B & C). cbn [fields map] in A. inversion A as [|f u fs q' A1 A2]; subst. exists u, q'. cbn [concat] in *. rewrite app_length in *.
  assert (E1 : firstn (length u) (skipn i w) = u).
  { assert (Z : firstn (length u) (firstn (length u + length (concat q')) (skipn i w)) = u) by (rewrite B, firstn_app, Nat.sub_diag, firstn_all, firstn_O, app_nil_r; reflexivity).
    rewrite firstn_firstn in Z. replace (Init.Nat.min (length u) (length u + length (concat q'))) with (length u) in Z by lia. exact Z. }
  split; [reflexivity|]. split; [exact A1|]. split; [exact E1|]. split; [lia|]. split; [exact A2|]. split; [|lia].
  rewrite (cut_skip w i (length u)), E1 in B. rewrite firstn_app in B. rewrite firstn_all2 in B by lia. apply app_inv_head in B.
  replace (length u + length (concat q') - length u) with (length (concat q')) in B by lia. exact B.
Qed.
Definition clogs (cs : list choice) (g i : nat) (q : list str) := rev (combine (seq g (ccap cs)) (spans (fields cs) q i)).
Definition blind (K : outs) : Prop := forall j l1 l2, K (j, l1) = [] -> K (j, l2) = [].
Lemma best_sem cs : forall g i l K, cokl cs = true -> blind K -> i <= L ->
  match Den.first_ok K (sem_sq w (csq cs g) (i, l)) with
  | Some x => exists p, reads cs i p /\ length (spans (fields cs) p i) = ccap cs /\ hd_error (K (i + length (concat p), clogs cs g i p ++ l)) = Some x
                /\ forall q m, reads cs i q -> K (i + length (concat q), m) <> [] -> before cs p q
  | None => forall q m, reads cs i q -> K (i + length (concat q), m) = []
  end.
Proof.
  induction cs as [|c cs IH]; intros g i l K HK HB Hi.
  - cbn [csq sem_sq]. unfold eps_o. rewrite first_cons. cbn [Den.first_ok]. change (Den.first_ok K []) with (@None cfg).
    destruct (hd_error (K (i, l))) as [x|] eqn:E.
    + exists []. cbn [concat length before]. rewrite Nat.add_0_r. split; [|conj; auto].
      split; [constructor|]. cbn. split; [reflexivity|lia].
    + intros q m (A & _). inversion A; subst. cbn [concat length]. rewrite Nat.add_0_r. apply (HB _ l). destruct (K (i, l)); [reflexivity|discriminate].
  - cbn [cokl forallb] in HK. apply andb_true_iff in HK as [HK1 HK2]. fold (cokl cs) in HK2. rewrite csem_step, first_seq.
    set (K' := fun c' => flat_map K (sem_sq w (csq cs (nextg (ch_f c) g)) c')).
    assert (E' : forall j m, hd_error (K' (j, m)) = Den.first_ok K (sem_sq w (csq cs (nextg (ch_f c) g)) (j, m))) by reflexivity.
    destruct (Den.first_ok K' (cstep c g (i, l))) as [x|] eqn:E.
    + destruct (first_split _ _ _ E) as (l1 & [j m] & l2 & EL & H & HN).
      assert (IN : In (j, m) (cstep c g (i, l))) by (rewrite EL; apply in_or_app; right; now left).
      destruct (cstep_part c g i l j m HK1 IN Hi) as [-> (u & F & -> & B & Eu)].
      rewrite E' in H. pose proof (IH (nextg (ch_f c) g) (i + length u) (clog c g i (i + length u) l) K HK2 HB B) as R. rewrite H in R.
      destruct R as (p & R1 & R2 & R3 & R4). exists (u :: p). split; [now apply reads_cons|]. cbn [concat fields map spans]. rewrite !app_length. rewrite ccap_cons. split.
      { fold (fields cs). rewrite ?app_length, R2. destruct (f_cap (ch_f c)); reflexivity. }
      split.
      { rewrite Nat.add_assoc. replace (clogs (c :: cs) g i (u :: p) ++ l) with (clogs cs (nextg (ch_f c) g) (i + length u) p ++ clog c g i (i + length u) l); [exact R3|].
        unfold clogs, clog, nextg. rewrite ccap_cons. cbn [fields map spans]. destruct (f_cap (ch_f c)); cbn [app seq combine rev]; [|reflexivity]. now rewrite <- app_assoc. }
      intros q m Rq Kq. destruct (reads_inv c cs i q Rq) as (v & q' & -> & F' & Ev & B' & Rq'). cbn [concat] in Kq. rewrite app_length, Nat.add_assoc in Kq. cbn [before].
      destruct (Nat.eq_dec (length u) (length v)) as [Ln|Ln].
      * right. split; [exact Ln|]. apply (R4 q' m); [|rewrite Ln; exact Kq]. rewrite Ln. exact Rq'.
      * left. pose proof (part_cstep c g i l v HK1 F' Ev B') as Iv. rewrite EL in Iv. pose proof (cstep_sorted c g HK1 (i, l)) as Sd. rewrite EL in Sd.
        apply in_app_or in Iv as [Iv|[Iv|Iv]].
        -- exfalso. apply HN in Iv. pose proof (IH (nextg (ch_f c) g) (i + length v) (clog c g i (i + length v) l) K HK2 HB B') as R. rewrite <- E', Iv in R. cbn [hd_error] in R. exact (Kq (R q' m Rq')).
        -- injection Iv as Iv _. lia.
        -- assert (P : pref (ch_lazy c) (i + length u, clog c g i (i + length u) l) (i + length v, clog c g i (i + length v) l)).
           { clear -Sd Iv. induction l1 as [|y l1 IHl]; cbn [app] in Sd; inversion Sd; subst; [|now apply IHl]. rewrite Forall_forall in *. auto. }
           unfold pref in P. cbn [fst] in P. destruct (ch_lazy c); lia.
    + intros q m Rq. destruct (reads_inv c cs i q Rq) as (v & q' & -> & F' & Ev & B' & Rq'). cbn [concat]. rewrite app_length, Nat.add_assoc.
      pose proof (part_cstep c g i l v HK1 F' Ev B') as Iv. pose proof (IH (nextg (ch_f c) g) (i + length v) (clog c g i (i + length v) l) K HK2 HB B') as R. rewrite <- E' in R.
      assert (Z : hd_error (K' (i + length v, clog c g i (i + length v) l)) = None).
      { clear -E Iv. revert E Iv. generalize (cstep c g (i, l)). intro ls. induction ls as [|y ls IHl]; [intros _ []|]. rewrite first_cons. destruct (hd_error (K' y)) eqn:Ey; [discriminate|].
        intros E [->|Iv]; [exact Ey|now apply IHl]. }
      rewrite Z in R. exact (R q' m Rq').
Qed.
End M.
