(** What patterns with repeated parts mean: a text consists of such parts, in one way only. *)
From Coq Require Import ZArith NArith List Bool Lia ZifyBool ZifyNat ZifyN.
From Verif Require Import Base Text Ast Spec SpecProofs SpecEnd Tree SpecFields Fields FieldsPre SpecParts Parts.
Import ListNotations.
Open Scope nat_scope.

Section M.
Variable w : str.
Notation L := (length w).
(** [u] stands at position [i]. *)
Definition at_pos (i : nat) (u : str) : Prop := firstn (length u) (skipn i w) = u /\ i + length u <= L.
Lemma at_app i u v : at_pos i (u ++ v) <-> at_pos i u /\ at_pos (i + length u) v.
Proof.
  unfold at_pos. rewrite app_length. split.
  - intros [E B].
    assert (E1 : firstn (length u) (skipn i w) = u).
    { assert (Z : firstn (length u) (firstn (length u + length v) (skipn i w)) = u) by (rewrite E, firstn_app, Nat.sub_diag, firstn_all, firstn_O, app_nil_r; reflexivity).
      rewrite firstn_firstn in Z. replace (Init.Nat.min (length u) (length u + length v)) with (length u) in Z by lia. exact Z. }
    split; [split; [exact E1|lia]|]. split; [|lia]. rewrite (cut_skip w i (length u)), E1 in E. rewrite firstn_app in E. rewrite firstn_all2 in E by lia. apply app_inv_head in E.
    replace (length u + length v - length u) with (length v) in E by lia. exact E.
  - intros [[E1 B1] [E2 B2]]. split; [|lia]. rewrite (cut_skip w i (length u)), E1. rewrite firstn_app. rewrite firstn_all2 by lia. f_equal.
    replace (length u + length v - length u) with (length v) by lia. exact E2.
Qed.
Lemma at_nil i : i <= L -> at_pos i [].
Proof. intro H. split; [reflexivity|cbn; lia]. Qed.

(** The language of fields without captures. *)
Lemma fields_lang fs : forall g i j, existsb f_cap fs = false -> forallb fok fs = true -> lang_sq w (fsq fs g) i j -> i <= L ->
  exists vs, Forall2 fits fs vs /\ j = i + length (concat vs) /\ at_pos i (concat vs).
Proof.
  induction fs as [|f r IH]; intros g i j C F H B.
  - cbn [fsq lang_sq] in H. subst j. exists []. split; [constructor|]. split; [cbn; lia|]. now apply at_nil.
  - cbn [existsb] in C. apply orb_false_iff in C as [C1 C2]. cbn [forallb] in F. apply andb_true_iff in F as [F1 F2]. cbn [fsq] in H. rewrite C1 in H. cbn [lang_sq] in H.
    destruct H as (m & k & Bd & P & H). destruct (run_chars w _ _ _ _ P B) as (-> & Bk & Ch). destruct (IH _ _ _ C2 F2 H Bk) as (vs & A1 & -> & A3).
    assert (Ln : length (firstn k (skipn i w)) = k) by (rewrite firstn_length, skipn_length; lia).
    exists (firstn k (skipn i w) :: vs). cbn [concat]. rewrite app_length, Ln. split; [|split; [lia|]].
    + constructor; [|exact A1]. apply fits_bounds; [exact F1|]. rewrite Ln. auto.
    + apply at_app. rewrite Ln. split; [|exact A3]. split; [now rewrite Ln|lia].
Qed.
Lemma loop_lang fs k : forall i j, existsb f_cap fs = false -> forallb fok fs = true -> pieces (lang_atom w (ANon (ROne (Br false (fsq fs 0))))) k i j -> i <= L ->
  exists us, length us = k /\ Forall (fun v => exists vs, divides fs vs v) us /\ j = i + length (concat us) /\ at_pos i (concat us).
Proof.
  induction k as [|k IH]; intros i j C F H B; inversion H as [|k' i' m l' H1 H2]; subst.
  - exists []. split; [reflexivity|]. split; [constructor|]. split; [cbn; lia|]. now apply at_nil.
  - cbn [lang_atom lang lang_br] in H1. destruct H1 as [_ H1]. destruct (fields_lang fs 0 i m C F H1 B) as (vs & A1 & -> & A3). assert (Bm : i + length (concat vs) <= L) by apply A3.
    destruct (IH _ _ C F H2 Bm) as (us & U1 & U2 & -> & U4). exists (concat vs :: us). cbn [concat length]. rewrite app_length. split; [lia|]. split; [|split; [lia|]].
    + constructor; [|exact U2]. exists vs. split; [exact A1|reflexivity].
    + apply at_app. split; [exact A3|exact U4].
Qed.
Lemma divides_sq fs vs g i : forallb fok fs = true -> Forall2 fits fs vs -> at_pos i (concat vs) -> lang_sq w (fsq fs g) i (i + length (concat vs)).
Proof. intros F D [E B]. now apply parts_lang. Qed.
Lemma loop_pieces fs us : forall i, forallb fok fs = true -> Forall (fun v => exists vs, divides fs vs v) us -> at_pos i (concat us) ->
  pieces (lang_atom w (ANon (ROne (Br false (fsq fs 0))))) (length us) i (i + length (concat us)).
Proof.
  induction us as [|v us IH]; intros i F D A; cbn [length concat] in *; [rewrite Nat.add_0_r; constructor|]. inversion D as [|? ? (vs & Dv & <-) D2]; subst. apply at_app in A as [A1 A2].
  rewrite app_length, Nat.add_assoc. apply (PS _ _ i (i + length (concat vs))); [|now apply IH]. cbn [lang_atom lang lang_br]. split; [discriminate|]. now apply divides_sq.
Qed.

(** The ways to match. *)
Lemma keeps_fsq fs : forall g, existsb f_cap fs = false -> keeps (sem_sq w (fsq fs g)).
Proof.
  induction fs as [|f fs IH]; intros g C; [intros c c' [<-|[]]; reflexivity|]. cbn [existsb] in C. apply orb_false_iff in C as [C1 C2]. cbn [fsq]. rewrite C1. cbn [sem_sq sem_atom].
  apply keeps_seq; [apply keeps_am|now apply IH].
Qed.
Lemma keeps_loop a plus : keeps a -> keeps (quant_o w (lp_quant plus) a).
Proof. intro A. unfold lp_quant. destruct plus; cbn [quant_o rep_o]; auto using keeps_seq, keeps_pow, keeps_most. Qed.
Lemma loop_part d gs plus r i l j l' : parted d (PL gs plus :: r) = true -> In (j, l') (quant_o w (lp_quant plus) (sem_atom w (ANon (ROne (Br false (fsq gs 0))))) (i, l)) -> i <= L ->
  exists u, pfits (PL gs plus) u /\ j = i + length u /\ at_pos i u /\ l' = l.
Proof.
  intros H I B. destruct (parted_l d gs plus r H) as (h & t & -> & K & _). set (gs := h :: t) in *.
  assert (Kl : l' = l).
  { assert (KK : keeps (sem_atom w (ANon (ROne (Br false (fsq gs 0)))))) by exact (keeps_fsq gs 0 (lo_cap _ _ K)). apply (keeps_loop _ plus KK _ _ I). }
  assert (W : wf (ROne (Br false (SCons (ANon (ROne (Br false (fsq gs 0)))) (lp_quant plus) SNil))) = true).
  { pose proof (wf_psq d (PL gs plus :: r) 0 H) as W. cbn [psq wf_sq] in W. rewrite !andb_true_iff in W. destruct W as [[W1 W2] _]. cbn [wf wf_br wf_sq]. now rewrite W1, W2. }
  assert (S : In (j, l') (sem w (ROne (Br false (SCons (ANon (ROne (Br false (fsq gs 0)))) (lp_quant plus) SNil))) (i, l))).
  { cbn [sem sem_br sem_sq]. apply in_flat_map. exists (j, l'). split; [exact I|now left]. }
  apply sem_sound in S; [|exact W]. cbn [fst lang lang_br lang_sq] in S. destruct S as [_ (m & k & Bd & P & ->)].
  destruct (loop_lang gs k i j (lo_cap _ _ K) (lo_fok _ _ K) P B) as (us & U1 & U2 & -> & U4). exists (concat us). split; [|auto]. exists us. split; [exact U2|]. split; [reflexivity|].
  intros ->. unfold lp_quant in Bd. cbn [in_bounds kind_min] in Bd. intros ->. cbn [length] in U1. subst k. lia.
Qed.
Definition pnext (p : part) (g : nat) : nat := if p_cap p then S g else g.
Lemma sem_pparts d ps : forall g i l j l', parted d ps = true -> In (j, l') (sem_sq w (psq ps g) (i, l)) -> i <= L ->
  exists us, Forall2 pfits ps us /\ j = i + length (concat us) /\ at_pos i (concat us)
    /\ length (pspans ps us i) = pcap ps /\ l' = rev (combine (seq g (pcap ps)) (pspans ps us i)) ++ l.
Proof.
  induction ps as [|p r IH]; intros g i l j l' F H Hi.
  - cbn in H. destruct H as [[= <- <-]|[]]. exists []. split; [constructor|]. split; [cbn; lia|]. split; [now apply at_nil|]. split; reflexivity.
  - assert (Fr : parted d r = true) by (destruct p; [now apply parted_f in F|apply parted_l in F; now destruct F as (?&?&?&?&?&?&?&F)]).
    assert (X : exists j1 l1, (exists u, pfits p u /\ j1 = i + length u /\ at_pos i u /\ l1 = (if p_cap p then [(g, (i, j1))] else []) ++ l)
                 /\ In (j, l') (sem_sq w (psq r (pnext p g)) (j1, l1))).
    { unfold pnext. destruct p as [f|gs plus]; cbn [p_cap psq] in *.
      - apply parted_f in F as (F1 & _). destruct (f_cap f).
        + cbn [sem_sq] in H. unfold seq_o in H. apply in_flat_map in H as ([j1 l1] & H1 & H2). exists j1, l1. split; [|exact H2].
          cbn [quant_o sem_atom sem sem_br] in H1. unfold cap_o in H1. apply in_map_iff in H1 as ([j2 l2] & E & H1). cbn [fst snd] in E. injection E as <- <-.
          cbn [one_sq sem_sq sem_atom] in H1. unfold seq_o in H1. apply in_flat_map in H1 as (c & H1 & H3). destruct H3 as [->|[]].
          destruct (unit_part w f i l j2 l2 F1 H1 Hi) as (u & A & B & C & D & E). exists u. split; [exact A|]. split; [exact B|]. split; [split; [exact D|lia]|]. cbn. now subst.
        + cbn [sem_sq sem_atom] in H. unfold seq_o in H. apply in_flat_map in H as ([j1 l1] & H1 & H2). exists j1, l1. split; [|exact H2].
          destruct (unit_part w f i l j1 l1 F1 H1 Hi) as (u & A & B & C & D & E). exists u. split; [exact A|]. split; [exact B|]. split; [split; [exact D|lia]|]. exact E.
      - change (In (j, l') (seq_o (quant_o w (lp_quant plus) (sem_atom w (ANon (ROne (Br false (fsq gs 0)))))) (sem_sq w (psq r g)) (i, l))) in H. unfold seq_o in H.
        apply in_flat_map in H as ([j1 l1] & H1 & H2). exists j1, l1. split; [|exact H2]. exact (loop_part d gs plus r i l j1 l1 F H1 Hi). }
    destruct X as (j1 & l1 & (u & Fu & -> & Au & ->) & H2). assert (Bu : i + length u <= L) by apply Au. destruct (IH _ _ _ _ _ Fr H2 Bu) as (us & P1 & -> & P3 & P5 & ->).
    exists (u :: us). cbn [concat pspans]. rewrite app_length. split; [now constructor|]. split; [lia|]. split; [now apply at_app|]. unfold pcap, pnext in *. cbn [filter].
    destruct (p_cap p); cbn [app length].
    + rewrite P5. split; [reflexivity|]. cbn [seq combine rev]. rewrite <- !app_assoc. reflexivity.
    + split; [exact P5|reflexivity].
Qed.
Lemma pparts_lang d ps : forall g i us, parted d ps = true -> Forall2 pfits ps us -> at_pos i (concat us) -> lang_sq w (psq ps g) i (i + length (concat us)).
Proof.
  induction ps as [|p r IH]; intros g i us F H A; inversion H; subst; [cbn; lia|].
  assert (Fr : parted d r = true) by (destruct p; [now apply parted_f in F|apply parted_l in F; now destruct F as (?&?&?&?&?&?&?&F)]).
  cbn [concat] in *. rename y into u, l' into us. apply at_app in A as [A1 A2]. rewrite app_length, Nat.add_assoc. specialize (fun g => IH g (i + length u) us Fr H4 A2).
  destruct p as [f|gs plus]; cbn [psq pfits] in *.
  - apply parted_f in F as (F1 & _). apply fits_bounds in H2 as [B1 B2]; [|exact F1]. pose proof (chars_run w _ _ i B1 (proj1 A1)) as P. destruct (f_cap f); cbn [lang_sq].
    + exists (i + length u), 1. split; [reflexivity|]. split; [|apply IH]. apply (PS _ _ i (i + length u)); [|constructor]. cbn [lang_atom lang lang_br one_sq lang_sq].
      split; [discriminate|]. exists (i + length u), (length u). auto.
    + exists (i + length u), (length u). split; [exact B2|]. split; [exact P|apply IH].
  - apply parted_l in F as (h & t & -> & K & _). destruct H2 as (vs & V1 & V2 & V3). subst u. set (gs := h :: t) in *.
    change (exists m k, in_bounds (lp_quant plus) k /\ pieces (lang_atom w (ANon (ROne (Br false (fsq gs 0))))) k i m /\ lang_sq w (psq r g) m (i + length (concat vs) + length (concat us))).
    exists (i + length (concat vs)), (length vs). split; [|split; [|apply IH]].
    + unfold lp_quant. destruct plus; cbn [in_bounds kind_min kind_max]; (split; [|exact Logic.I]); [|lia]. specialize (V3 eq_refl). destruct vs; [congruence|cbn [length]; lia].
    + apply loop_pieces; [exact (lo_fok _ _ K)|exact V1|exact A1].
Qed.
Lemma pdivides_lang d a ps us : parted d ps = true -> pdivides ps us w -> lang w (prx a ps) 0 L.
Proof.
  intros F [D E]. unfold prx. cbn [lang lang_br]. split; [reflexivity|].
  assert (X : lang_sq w (psq ps 0) 0 (0 + length (concat us))); [|rewrite E in X; exact X].
  apply (pparts_lang d); [exact F|exact D|]. rewrite E. split; [cbn [skipn]; apply firstn_all|lia].
Qed.
Lemma sem_pdivides d ps j l : parted d ps = true -> In (j, l) (sem w (prx true ps) (0, [])) -> j = L ->
  exists us, pdivides ps us w /\ length (pspans ps us 0) = pcap ps /\ l = rev (combine (seq 0 (pcap ps)) (pspans ps us 0)).
Proof.
  intros F H ->. unfold prx in H. cbn [sem sem_br] in H. unfold seq_o, bol_o in H. cbn [fst Nat.eqb flat_map] in H. rewrite app_nil_r in H.
  destruct (sem_pparts d ps 0 0 [] _ l F H ltac:(lia)) as (us & P1 & P2 & P4 & P5 & P6). exists us. split; [|rewrite app_nil_r in P6; auto]. split; [exact P1|].
  cbn [Nat.add] in P2. destruct P4 as [P4 _]. cbn [skipn] in P4. rewrite <- P2 in P4. rewrite <- P4. apply firstn_all.
Qed.
End M.

(** * The parts are unique *)
Notation inrange := (Forall (fun c => (-128 <= c <= 127)%Z)).
Definition headoff (z : elem) (x : str) : Prop := forall c v, x = c :: v -> elem_set z c = false.
Lemma off_apart x y c : apart (wide x) (wide y) = true -> (-128 <= c <= 127)%Z -> elem_set y c = true -> elem_set x c = false.
Proof.
  intros A R Y. destruct (elem_set x c) eqn:X; [|reflexivity]. exfalso. unfold apart in A. rewrite forallb_forall in A. specialize (A c (chars_in c R)). rewrite (elem_wide _ _ X), (elem_wide _ _ Y) in A. discriminate.
Qed.
Lemma same_front (u1 u2 r1 r2 : str) : u1 ++ r1 = u2 ++ r2 -> length u1 = length u2 -> u1 = u2 /\ r1 = r2.
Proof. revert u2. induction u1 as [|x u1 IH]; intros [|y u2] E Ln; cbn in *; try lia; [auto|]. injection E as -> E. destruct (IH u2 E ltac:(lia)) as [-> ->]. auto. Qed.
Lemma run_front f u1 u2 r1 r2 : is_run f = true -> fits f u1 -> fits f u2 -> u1 ++ r1 = u2 ++ r2 -> headoff (f_el f) r1 -> headoff (f_el f) r2 -> u1 = u2 /\ r1 = r2.
Proof.
  intros R A B E O1 O2. apply same_front; [exact E|]. destruct (Nat.lt_trichotomy (length u1) (length u2)) as [X|[X|X]]; [|exact X|]; exfalso.
  - destruct (prefix_short _ _ _ _ E X) as (c & v & -> & I). destruct B as [B _]. rewrite Forall_forall in B. specialize (B c I). rewrite (O1 c v eq_refl) in B. discriminate.
  - symmetry in E. destruct (prefix_short _ _ _ _ E X) as (c & v & -> & I). destruct A as [A _]. rewrite Forall_forall in A. specialize (A c I). rewrite (O2 c v eq_refl) in A. discriminate.
Qed.
Lemma fields_off f h r vs x : fok h = true -> required h = true -> apart (wide (f_el f)) (wide (f_el h)) = true -> Forall2 fits (h :: r) vs -> inrange (concat vs ++ x) -> headoff (f_el f) (concat vs ++ x).
Proof.
  intros K R A H I c v E. inversion H; subst. destruct (req_head h y K R H2) as (c' & v' & -> & S). cbn [concat app] in E, I. injection E as -> _. inversion I; subst. now apply (off_apart _ (f_el h)).
Qed.
Lemma fields_split fs : forall p1 p2 x1 x2, forallb fok fs = true -> gaps fs -> Forall2 fits fs p1 -> Forall2 fits fs p2 -> concat p1 ++ x1 = concat p2 ++ x2 -> inrange (concat p1 ++ x1) ->
  (forall z, In z (end_run fs) -> headoff z x1 /\ headoff z x2) -> concat p1 = concat p2 /\ x1 = x2.
Proof.
  induction fs as [|f r IH]; intros p1 p2 x1 x2 F G A B E I O; inversion A; inversion B; subst; [cbn in E; auto|]. cbn [forallb] in F. apply andb_true_iff in F as [F1 F2]. destruct G as [G1 G2].
  rename y into u1, y0 into u2, l' into q1, l'0 into q2. cbn [concat] in *. rewrite <- !app_assoc in *.
  assert (U : u1 = u2 /\ concat q1 ++ x1 = concat q2 ++ x2).
  { destruct (is_run f) eqn:R.
    - apply (run_front f); auto.
      + destruct r as [|h r]; [inversion H3; subst; apply O; unfold end_run; cbn; rewrite R; now left|]. destruct (G1 R) as [Q Ap]. cbn [forallb] in F2. apply andb_true_iff in F2 as [F2 _].
        apply (fields_off f h r); auto. apply Forall_app in I. tauto.
      + destruct r as [|h r]; [inversion H8; subst; apply O; unfold end_run; cbn; rewrite R; now left|]. destruct (G1 R) as [Q Ap]. cbn [forallb] in F2. apply andb_true_iff in F2 as [F2 _].
        apply (fields_off f h r); auto. rewrite E in I. apply Forall_app in I. tauto.
    - apply same_front; [exact E|]. now apply (fixed_len f). }
  destruct U as [-> U]. destruct (IH q1 q2 x1 x2) as [-> ->]; auto.
  - apply Forall_app in I. tauto.
  - intros z Hz. apply O. destruct r as [|h r]; [destruct Hz|]. now rewrite end_run_cons.
Qed.
(** A block begins with the separator. *)
Lemma block_head h t v : loopok h t -> (exists vs, divides (h :: t) vs v) -> exists c v', v = c :: v' /\ elem_set (f_el h) c = true.
Proof.
  intros K (vs & D & <-). inversion D; subst. destruct (req_head h y (lk_fok h t K) (lk_req h t K) H1) as (c & v' & -> & S). cbn [concat app]. eauto.
Qed.
Lemma loop_split h t : loopok h t -> forall us1 us2 x1 x2, Forall (fun v => exists vs, divides (h :: t) vs v) us1 -> Forall (fun v => exists vs, divides (h :: t) vs v) us2 ->
  concat us1 ++ x1 = concat us2 ++ x2 -> inrange (concat us1 ++ x1) -> headoff (f_el h) x1 -> headoff (f_el h) x2 ->
  (forall z, In z (end_run (h :: t)) -> headoff z x1 /\ headoff z x2) -> concat us1 = concat us2 /\ x1 = x2.
Proof.
  intros K. induction us1 as [|v1 us1 IH]; intros [|v2 us2] x1 x2 A B E I O1 O2 Oz.
  - cbn in E. auto.
  - exfalso. inversion B; subst. destruct (block_head h t v2 K H1) as (c & v' & -> & S). cbn in E. rewrite (O1 c _ E) in S. discriminate.
  - exfalso. inversion A; subst. destruct (block_head h t v1 K H1) as (c & v' & -> & S). cbn in E. symmetry in E. rewrite (O2 c _ E) in S. discriminate.
  - inversion A as [|? ? B1 A2]; inversion B as [|? ? B2 A4]; subst. cbn [concat] in *. rewrite <- !app_assoc in *. destruct B1 as (vs1 & D1 & <-), B2 as (vs2 & D2 & <-).
    assert (OFF : forall us x, Forall (fun v => exists vs, divides (h :: t) vs v) us -> inrange (concat us ++ x) -> (forall z, In z (end_run (h :: t)) -> headoff z x) -> forall z, In z (end_run (h :: t)) -> headoff z (concat us ++ x)).
    { clear -K. intros us x F I Ox z Hz. destruct us as [|v us]; [now apply Ox|]. intros c q E. inversion F; subst. destruct (block_head h t v K H1) as (c' & v' & -> & S). cbn in E, I. injection E as -> _. inversion I; subst.
      destruct (end_off h t z K Hz) as [_ Ap]. now apply (off_apart z (f_el h)). }
    assert (I1 : inrange (concat us1 ++ x1)) by (apply Forall_app in I; tauto). assert (I2 : inrange (concat us2 ++ x2)) by (rewrite E in I; apply Forall_app in I; tauto).
    destruct (fields_split (h :: t) vs1 vs2 (concat us1 ++ x1) (concat us2 ++ x2) (lo_fok _ _ K) (lo_gaps _ _ K) D1 D2 E I) as [E1 E2].
    { intros z Hz. split; apply OFF; auto; intros z' Hz'; now apply Oz. }
    destruct (IH us2 x1 x2 A2 A4 E2 I1 O1 O2 Oz) as [E3 E4]. split; [congruence|exact E4].
Qed.
Lemma parts_head ps : forall d us c v, parted d ps = true -> Forall2 pfits ps us -> concat us = c :: v -> exists x, In x (heads ps) /\ elem_set x c = true.
Proof.
  induction ps as [|[f|gs plus] r IH]; intros d us c v P H E; inversion H; subst; [discriminate| |]; rename y into u, l' into us; cbn [concat] in E; cbn [heads].
  - apply parted_f in P as (F & P & _). destruct u as [|c' u].
    + assert (required f = false) as ->. { destruct (required f) eqn:R; [|reflexivity]. destruct (req_head f [] F R H2) as (? & ? & X & _). discriminate X. }
      destruct (IH d us c v P H4 E) as (x & I & S). exists x. split; [now right|exact S].
    + cbn in E. injection E as -> _. exists (f_el f). split; [now left|]. destruct H2 as [H2 _]. now inversion H2.
  - apply parted_l in P as (h & t & -> & K & _ & _ & _ & P). destruct H2 as (vs & V1 & V2 & V3). destruct vs as [|b vs].
    + cbn in V2. subst u. destruct plus; [now elim V3|]. destruct (IH d us c v P H4 E) as (x & I & S). exists x. split; [now right|exact S].
    + inversion V1 as [|? ? Vb Vr]; subst. destruct (block_head h t b K Vb) as (c' & v' & -> & S). cbn in E. injection E as -> _. exists (f_el h). split; [now left|exact S].
Qed.
Lemma heads_off d ps us x : parted d ps = true -> Forall2 pfits ps us -> apart_all x (heads ps) = true -> inrange (concat us) -> headoff x (concat us).
Proof.
  intros P H A I c v E. destruct (parts_head ps d us c v P H E) as (y & Iy & S). unfold apart_all in A. rewrite forallb_forall in A. apply (off_apart x y); [now apply A| |exact S]. rewrite E in I. now inversion I.
Qed.
Lemma pparts_unique d ps : forall p1 p2, parted d ps = true -> Forall2 pfits ps p1 -> Forall2 pfits ps p2 -> concat p1 = concat p2 -> inrange (concat p1) -> p1 = p2.
Proof.
  induction ps as [|[f|gs plus] r IH]; intros p1 p2 P A B E I; inversion A as [|? u1 ? q1 X1 Y1]; inversion B as [|? u2 ? q2 X2 Y2]; subst; [reflexivity| |]; cbn [concat] in *;
    assert (I1 : inrange (concat q1)) by (apply Forall_app in I; tauto); assert (I2 : inrange (concat q2)) by (rewrite E in I; apply Forall_app in I; tauto).
  - apply parted_f in P as (F & P & R). assert (U : u1 = u2 /\ concat q1 = concat q2).
    { destruct (is_run f) eqn:Ru; [|apply same_front; [exact E|now apply (fixed_len f)]]. destruct (R eq_refl) as (_ & Ap & _). apply (run_front f); auto; now apply (heads_off d r). }
    destruct U as [-> U]. f_equal. now apply IH.
  - apply parted_l in P as (h & t & -> & K & _ & Ap & En & P). destruct X1 as (vs1 & V1 & <- & _), X2 as (vs2 & V2 & <- & _).
    destruct (loop_split h t K vs1 vs2 (concat q1) (concat q2) V1 V2 E I) as [X Y].
    + now apply (heads_off d r).
    + now apply (heads_off d r).
    + intros z Hz. destruct (En z Hz) as [Az _]. split; now apply (heads_off d r).
    + rewrite X. f_equal. now apply IH.
Qed.
