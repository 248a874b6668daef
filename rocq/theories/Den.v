(** The ways to match a tree, in priority order: the specification semantics of Spec.v read
    on the node type; and first-success equivalence of such semantics. *)
From Coq Require Import ZArith NArith List Bool Lia ZifyBool ZifyNat ZifyN.
From Verif Require Import Base Text Ast Builder Engine Spec SpecProofs Tree AstProofs.
Import ListNotations.
Open Scope Z_scope.

(** The set of a one-character terminal. *)
Definition kset (k : tkind) : option (chr -> bool) :=
  match k with
  | KExact [c] => Some (Z.eqb c)
  | KExact _ => None
  | KRange a b => Some (test_range a b)
  | KSelf KAny => Some test_any
  | KSelf KSpace => Some test_space
  | KSelf KWord => Some test_word
  end.
Definition tset (t : term) : option (chr -> bool) :=
  match t with
  | TTerminal tok => kset (term_kind tok)
  | TExact s => kset (KExact s)
  | TRange a b => Some (test_range a b)
  | TStart => None
  | TEnd => None
  end.
Lemma tset_optimize t : tset (term_optimize t) = tset t.
Proof. destruct t; cbn; try reflexivity. destruct (term_kind tok) as [s|a b|k] eqn:E; cbn; rewrite ?E; reflexivity. Qed.

Definition mx_opt (mx : N) : option N := if N.eqb mx UMAX then None else Some mx.

Section Den.
Variable w : str.

Definition none_o : outs := fun _ => [].
Definition not_o (a : outs) : outs := fun c =>
  match nth_error w (fst c) with
  | Some _ => match a c with [] => [(S (fst c), snd c)] | _ => [] end
  | None => []
  end.
(** [$]: at the end of the text; before it, it takes a line feed. *)
Definition eol_o : outs := fun c =>
  if Nat.eqb (fst c) (length w) then [c] else chr_o w (Z.eqb c_nl) c.
(** The continuation given by a list of children: nothing, or the alternatives. *)
Fixpoint alts (l : list outs) : outs :=
  match l with
  | [] => none_o
  | a :: r => match r with [] => a | _ => or_o a (alts r) end
  end.
Definition kidso (l : list outs) : outs := match l with [] => eps_o | _ => alts l end.

Fixpoint den (n : node) : outs :=
  match n with
  | Term TStart => bol_o
  | Term TEnd => eol_o
  | Term t => match tset t with Some P => chr_o w P | None => none_o end
  | SimpleV cs => kidso (map den cs)
  | Simple m cs => seq_o (den m) (kidso (map den cs))
  | Greedy m mn mx cs => seq_o (rep_o w Gr mn (mx_opt mx) (den m)) (kidso (map den cs))
  | Lazy m mn mx cs => seq_o (rep_o w Lz mn (mx_opt mx) (den m)) (kidso (map den cs))
  | Possessive m mn mx cs => seq_o (rep_o w Po mn (mx_opt mx) (den m)) (kidso (map den cs))
  | Repeated m k cs => seq_o (pow_o (N.to_nat k) (den m)) (kidso (map den cs))
  | Group m i cs => seq_o (cap_o i (den m)) (kidso (map den cs))
  | Negated m => not_o (den m)
  end.

(** ** First-success equivalence *)
(** [try_ K l]: the first of [l] from which [K] can go on, and how. *)
Definition first_ok (K : outs) (l : list cfg) : option cfg := hd_error (flat_map K l).
(** Equal under every continuation in [F]. *)
Definition feq (F : outs -> Prop) (a b : outs) : Prop :=
  forall K, F K -> forall c, first_ok K (a c) = first_ok K (b c).
Definition anyK (K : outs) : Prop := True.
Definition eqv (a b : outs) : Prop := feq anyK a b.

Lemma hd_app {A} (l1 l2 : list A) : hd_error (l1 ++ l2) = match hd_error l1 with Some x => Some x | None => hd_error l2 end.
Proof. destruct l1; reflexivity. Qed.
Lemma first_app K l1 l2 : first_ok K (l1 ++ l2) = match first_ok K l1 with Some x => Some x | None => first_ok K l2 end.
Proof. unfold first_ok. now rewrite flat_map_app, hd_app. Qed.
Lemma first_cons K c l : first_ok K (c :: l) = match hd_error (K c) with Some x => Some x | None => first_ok K l end.
Proof. unfold first_ok. cbn. apply hd_app. Qed.
Lemma flat_map_flat_map {A B C} (f : A -> list B) (g : B -> list C) l : flat_map g (flat_map f l) = flat_map (fun x => flat_map g (f x)) l.
Proof. induction l as [|x l IH]; cbn; [reflexivity|]. now rewrite flat_map_app, IH. Qed.
Lemma first_flat_map K f l : first_ok K (flat_map f l) = first_ok (fun c => flat_map K (f c)) l.
Proof. unfold first_ok. now rewrite flat_map_flat_map. Qed.
Lemma first_ext K K' l : (forall c, In c l -> hd_error (K c) = hd_error (K' c)) -> first_ok K l = first_ok K' l.
Proof.
  induction l as [|c l IH]; intro H; [reflexivity|]. rewrite !first_cons, H by (now left).
  destruct (hd_error (K' c)); [reflexivity|]. apply IH. intros; apply H; now right.
Qed.
Lemma first_eps l : first_ok eps_o l = hd_error l.
Proof. unfold first_ok, eps_o. destruct l; reflexivity. Qed.
Lemma first_none K l : (forall c, In c l -> K c = []) -> first_ok K l = None.
Proof. induction l as [|c l IH]; intro H; [reflexivity|]. rewrite first_cons, H by now left. apply IH. intros; apply H; now right. Qed.
Lemma first_some_in K l x : first_ok K l = Some x -> exists c, In c l /\ hd_error (K c) = Some x.
Proof.
  induction l as [|c l IH]; [discriminate|]. rewrite first_cons. destruct (hd_error (K c)) eqn:E.
  - injection 1 as <-. exists c. split; [now left|assumption].
  - intro H. destruct (IH H) as (d & A & B). exists d. split; [now right|assumption].
Qed.

Lemma eqv_refl a : eqv a a.
Proof. intros K _ c. reflexivity. Qed.
Lemma eqv_sym a b : eqv a b -> eqv b a.
Proof. intros H K HK c. symmetry. now apply H. Qed.
Lemma eqv_trans a b d : eqv a b -> eqv b d -> eqv a d.
Proof. intros H1 H2 K HK c. now rewrite H1, H2. Qed.
Lemma eqv_ext a b : (forall c, a c = b c) -> eqv a b.
Proof. intros H K HK c. now rewrite H. Qed.
Lemma eqv_hd a b c : eqv a b -> hd_error (a c) = hd_error (b c).
Proof. intro H. rewrite <- !first_eps. now apply H. Qed.
Lemma eqv_nil a b c : eqv a b -> a c = [] -> b c = [].
Proof. intros H E. apply (eqv_hd a b c) in H. rewrite E in H. destruct (b c); [reflexivity|discriminate]. Qed.

Lemma first_seq K a b c : first_ok K (seq_o a b c) = first_ok (fun c' => flat_map K (b c')) (a c).
Proof. apply first_flat_map. Qed.
Lemma eqv_seq a a' b b' : eqv a a' -> eqv b b' -> eqv (seq_o a b) (seq_o a' b').
Proof.
  intros Ha Hb K HK c. rewrite !first_seq. rewrite (Ha _ I). apply first_ext. intros d _.
  apply (Hb K I d).
Qed.
Lemma eqv_or a a' b b' : eqv a a' -> eqv b b' -> eqv (or_o a b) (or_o a' b').
Proof. intros Ha Hb K HK c. unfold or_o. rewrite !first_app, (Ha _ I), (Hb _ I). reflexivity. Qed.
Lemma first_map K f l : first_ok K (map f l) = first_ok (fun c => K (f c)) l.
Proof. unfold first_ok. induction l as [|x l IH]; [reflexivity|]. cbn. now rewrite !hd_app, IH. Qed.
Lemma eqv_cap i a a' : eqv a a' -> eqv (cap_o i a) (cap_o i a').
Proof. intros Ha K HK c. unfold cap_o. rewrite !first_map. apply (Ha _ I). Qed.
Lemma eqv_pow n a a' : eqv a a' -> eqv (pow_o n a) (pow_o n a').
Proof. intro Ha. induction n as [|n IH]; cbn; [apply eqv_refl|now apply eqv_seq]. Qed.
Lemma first_filter K p l : first_ok K (filter p l) = first_ok (fun c => if p c then K c else []) l.
Proof.
  induction l as [|c l IH]; [reflexivity|]. cbn. rewrite first_cons. destruct (p c).
  - now rewrite first_cons, IH.
  - cbn. exact IH.
Qed.
Lemma eqv_most n a a' : eqv a a' -> eqv (most_o n a) (most_o n a').
Proof.
  intro Ha. induction n as [|n IH]; intros K HK c; cbn; [reflexivity|].
  rewrite !first_app. unfold progress. rewrite !first_flat_map, !first_filter. rewrite (Ha _ I).
  match goal with |- match first_ok ?A _ with _ => _ end = match first_ok ?B _ with _ => _ end =>
    rewrite (first_ext A B) end; [reflexivity|].
  intros d _. destruct (negb _); [|reflexivity]. apply (IH K I d).
Qed.
Lemma eqv_least n a a' : eqv a a' -> eqv (least_o n a) (least_o n a').
Proof.
  intro Ha. induction n as [|n IH]; intros K HK c; cbn; [reflexivity|].
  rewrite !first_cons. destruct (hd_error (K c)); [reflexivity|].
  unfold progress. rewrite !first_flat_map, !first_filter. rewrite (Ha _ I).
  apply first_ext.
  intros d _. destruct (negb _); [|reflexivity]. apply (IH K I d).
Qed.
Lemma eqv_atomic a a' : eqv a a' -> eqv (atomic_o a) (atomic_o a').
Proof.
  intros Ha K HK c. unfold atomic_o. apply (eqv_hd _ _ c) in Ha.
  destruct (a c), (a' c); cbn in *; try discriminate; [reflexivity|]. injection Ha as ->. reflexivity.
Qed.
Lemma eqv_rep g mn mx a a' : eqv a a' -> eqv (rep_o w g mn mx a) (rep_o w g mn mx a').
Proof.
  intro Ha. destruct g; cbn.
  - apply eqv_seq; [now apply eqv_pow|now apply eqv_most].
  - apply eqv_seq; [now apply eqv_pow|now apply eqv_least].
  - apply eqv_atomic. apply eqv_seq; [now apply eqv_pow|now apply eqv_most].
Qed.
Lemma eqv_not a a' : eqv a a' -> eqv (not_o a) (not_o a').
Proof.
  intro Ha. apply eqv_ext. intro c. unfold not_o. destruct (nth_error w (fst c)); [|reflexivity].
  apply (eqv_hd _ _ c) in Ha. destruct (a c), (a' c); try discriminate; reflexivity.
Qed.
Lemma seq_eps_r a c : seq_o a eps_o c = a c.
Proof. unfold seq_o, eps_o. induction (a c) as [|x l IH]; [reflexivity|]. cbn in *. now rewrite IH. Qed.
Lemma eqv_seq_eps a : eqv (seq_o a eps_o) a.
Proof. apply eqv_ext, seq_eps_r. Qed.
Lemma alts_cons a l : l <> [] -> alts (a :: l) = or_o a (alts l).
Proof. destruct l; [congruence|reflexivity]. Qed.
Lemma eqv_alts l l' : Forall2 eqv l l' -> eqv (alts l) (alts l').
Proof.
  induction 1 as [|a a' l l' Ha Hl IH]; [apply eqv_refl|].
  destruct Hl as [|b b' l l' Hb Hl]; [exact Ha|]. rewrite !alts_cons by discriminate. now apply eqv_or.
Qed.
Lemma eqv_kids l l' : Forall2 eqv l l' -> eqv (kidso l) (kidso l').
Proof. intro H. pose proof (eqv_alts _ _ H) as A. destruct H; [apply eqv_refl|exact A]. Qed.

(** ** The tree of a pattern means what the pattern means *)
Definition citem_chr (i : citem) : chr -> bool := citem_set i.
Lemma chr_o_ext P Q : (forall x, P x = Q x) -> forall c, chr_o w P c = chr_o w Q c.
Proof. intros H c. unfold chr_o. destruct (nth_error w (fst c)); [now rewrite H|reflexivity]. Qed.
Lemma kset_esc c : escapable c = true -> exists P, kset (term_kind [c_bslash; c]) = Some P /\ forall x, P x = esc_set c x.
Proof.
  intro H. unfold term_kind, esc_set. unfold is1. cbn [str_eqb]. rewrite andb_false_r. cbv iota.
  unfold is_esc. cbn [str_eqb]. rewrite !Z.eqb_refl. cbn [andb]. rewrite !andb_true_r.
  destruct (Z.eqb_spec c 115) as [->|N1].
  { eexists. split; [reflexivity|]. intro x. cbn. unfold test_space. cbn. rewrite !orb_false_r, ?orb_assoc. reflexivity. }
  destruct (Z.eqb_spec c 119) as [->|N2].
  { eexists. split; [reflexivity|]. intro x. reflexivity. }
  destruct (Z.eqb_spec c 100) as [->|N3]; [eexists; split; [reflexivity|]; reflexivity|].
  destruct (Z.eqb_spec c 97) as [->|N4]; [eexists; split; [reflexivity|]; intro x; apply Z.eqb_sym|].
  destruct (Z.eqb_spec c 101) as [->|N5]; [eexists; split; [reflexivity|]; intro x; apply Z.eqb_sym|].
  destruct (Z.eqb_spec c 102) as [->|N6]; [eexists; split; [reflexivity|]; intro x; apply Z.eqb_sym|].
  destruct (Z.eqb_spec c 110) as [->|N7]; [eexists; split; [reflexivity|]; intro x; apply Z.eqb_sym|].
  destruct (Z.eqb_spec c 114) as [->|N8]; [eexists; split; [reflexivity|]; intro x; apply Z.eqb_sym|].
  destruct (Z.eqb_spec c 116) as [->|N9]; [eexists; split; [reflexivity|]; intro x; apply Z.eqb_sym|].
  eexists; split; [reflexivity|]; intro x; apply Z.eqb_sym.
Qed.
Lemma kset_lit c : plain c = true -> kset (term_kind [c]) = Some (Z.eqb c).
Proof.
  intro H. unfold term_kind, is1. cbn [str_eqb].
  assert (D : (c =? c_dot) = false).
  { apply Z.eqb_neq. intros ->. discriminate. }
  rewrite D. cbn [andb]. unfold is_esc. cbn [str_eqb]. rewrite !andb_false_r. reflexivity.
Qed.
Lemma den_citem i : citem_ok i = true -> eqv (den (tree_citem i)) (chr_o w (citem_set i)).
Proof.
  intro H. destruct i as [c|a b|c]; cbn [tree_citem den kidso map citem_ok citem_set] in *.
  - eapply eqv_trans; [apply eqv_seq_eps|]. cbn. apply eqv_ext, chr_o_ext. intro x. apply Z.eqb_sym.
  - eapply eqv_trans; [apply eqv_seq_eps|]. cbn. apply eqv_ext, chr_o_ext. reflexivity.
  - eapply eqv_trans; [apply eqv_seq_eps|]. cbn [tset]. destruct (kset_esc c H) as (P & -> & HP).
    apply eqv_ext, chr_o_ext. exact HP.
Qed.
Lemma eqv_or_chr P Q : eqv (or_o (chr_o w P) (chr_o w Q)) (chr_o w (fun x => P x || Q x)).
Proof.
  intros K _ c. unfold or_o, chr_o. destruct (nth_error w (fst c)) as [x|]; [|reflexivity].
  destruct (P x), (Q x); cbn; try reflexivity. rewrite !first_cons. destruct (hd_error _); reflexivity.
Qed.
Lemma den_citems items : items <> [] -> forallb citem_ok items = true ->
  eqv (kidso (map den (map tree_citem items))) (chr_o w (fun x => existsb (fun i => citem_set i x) items)).
Proof.
  intros N H. destruct items as [|i items]; [congruence|]. clear N. cbn [map kidso].
  revert i H. induction items as [|j items IH]; intros i H; cbn [forallb] in H; apply andb_true_iff in H as [A B].
  - cbn. eapply eqv_trans; [now apply den_citem|]. apply eqv_ext, chr_o_ext. intro x. now rewrite orb_false_r.
  - cbn [map]. rewrite alts_cons by discriminate. cbn [existsb].
    eapply eqv_trans; [apply eqv_or; [now apply den_citem|apply IH; exact B]|]. apply eqv_or_chr.
Qed.
Lemma den_elem x : elem_ok x = true -> eqv (den (tree_elem x)) (chr_o w (elem_set x)).
Proof.
  intro H. destruct x as [c|c| |neg items|a b c|a b]; cbn [tree_elem elem_ok elem_set] in *.
  - cbn [den kidso map]. eapply eqv_trans; [apply eqv_seq_eps|]. cbn [tset]. rewrite kset_lit by exact H.
    apply eqv_ext, chr_o_ext. intro x. apply Z.eqb_sym.
  - cbn [den kidso map]. eapply eqv_trans; [apply eqv_seq_eps|]. cbn [tset]. destruct (kset_esc c H) as (P & -> & HP).
    apply eqv_ext, chr_o_ext. exact HP.
  - cbn [den kidso map]. eapply eqv_trans; [apply eqv_seq_eps|]. apply eqv_ext, chr_o_ext. reflexivity.
  - apply andb_true_iff in H as [H N]. assert (NN : items <> []) by (destruct items; discriminate).
    pose proof (den_citems items NN H) as D.
    destruct neg; cbn [den]; (eapply eqv_trans; [apply eqv_seq_eps|]).
    + eapply eqv_trans; [apply eqv_not; exact D|]. apply eqv_ext. intro c. unfold not_o, chr_o.
      destruct (nth_error w (fst c)) as [y|]; [|reflexivity]. cbn [elem_set xorb]. destruct (existsb _ items); reflexivity.
    + cbn [den]. eapply eqv_trans; [exact D|]. apply eqv_ext, chr_o_ext. intro y. cbn. now destruct (existsb _ _).
  - cbn [den kidso map]. eapply eqv_trans; [apply eqv_seq_eps|]. apply eqv_ext, chr_o_ext. intro x. apply Z.eqb_sym.
  - cbn [den kidso map]. eapply eqv_trans; [apply eqv_seq_eps|]. apply eqv_ext, chr_o_ext. intro x. apply Z.eqb_sym.
Qed.

Definition childless (u : node) : Prop :=
  match u with
  | Simple _ cs | Greedy _ _ _ cs | Lazy _ _ _ cs | Possessive _ _ _ cs | Repeated _ _ cs | Group _ _ cs => cs = []
  | _ => False
  end.
Definition opt_den (r : option node) : outs := match r with Some n => den n | None => eps_o end.
Lemma den_followed u r : childless u -> eqv (den (followed u r)) (seq_o (den u) (opt_den r)).
Proof.
  intro H. destruct r as [c|]; cbn [followed opt_den].
  - destruct u; cbn in H; try contradiction; subst; cbn [app den map kidso alts];
      (apply eqv_seq; [apply eqv_sym, eqv_seq_eps|apply eqv_refl]).
  - apply eqv_sym, eqv_seq_eps.
Qed.
Lemma childless_elem x : childless (tree_elem x).
Proof. destruct x as [| | |[]| |]; reflexivity. Qed.
Lemma childless_atom a : childless (tree_atom a).
Proof. destruct a; [apply childless_elem|reflexivity|reflexivity]. Qed.
Lemma childless_quant q m : childless m -> childless (tree_quant q m).
Proof. destruct q as [|[] []]; cbn; auto. Qed.
Lemma extra_le mn mx : extra w mn mx = extra w mn mx. Proof. reflexivity. Qed.
Lemma mx_opt_small n : (n < UMAX)%N -> mx_opt n = Some n.
Proof. unfold mx_opt. destruct (N.eqb_spec n UMAX); [lia|reflexivity]. Qed.
Lemma num_small n : num_ok n = true -> (Z.to_N (num_val n) < UMAX)%N.
Proof. unfold num_ok, UMAX. rewrite !andb_true_iff. lia. Qed.
Lemma mx_opt_kind k g : quant_ok (QQ k g) = true -> mx_opt (umax_of (kind_max k)) = kind_max k.
Proof.
  destruct k as [| | |n|n|n m]; cbn; intro H; try reflexivity.
  - apply mx_opt_small, num_small. now apply andb_true_iff in H.
  - rewrite !andb_true_iff in H. apply mx_opt_small, num_small. tauto.
Qed.
Lemma den_quant q m : quant_ok q = true -> childless m -> eqv (den (tree_quant q m)) (quant_o w q (den m)).
Proof.
  intros H C. destruct q as [|k g]; [apply eqv_refl|]. cbn [quant_o].
  assert (G : match k with QExact _ => False | _ => True end ->
    eqv (den (mkq (pol_of g) m (kind_min k) (umax_of (kind_max k)))) (rep_o w g (kind_min k) (kind_max k) (den m))).
  { intros _. destruct g; cbn [pol_of mkq den map kidso]; (eapply eqv_trans; [apply eqv_seq_eps|]);
      erewrite mx_opt_kind by exact H; apply eqv_refl. }
  destruct k as [| | |n|n|n n2]; try (apply G; exact I).
  cbn in H. apply andb_true_iff in H as [H HG]. destruct g; try discriminate.
  cbn [tree_quant den map kidso kind_min kind_max]. eapply eqv_trans; [apply eqv_seq_eps|].
  unfold rep_o, extra. rewrite N.sub_diag. cbn. apply eqv_sym. apply eqv_ext. intro c. apply (seq_eps_r (pow_o (N.to_nat (Z.to_N (num_val n))) (den m)) c).
Qed.
Lemma den_all :
  (forall r, wf r = true -> eqv (kidso (map den (tree_bs r))) (sem w r))
  /\ (forall b, wf_br b = true -> eqv (den (tree_br b)) (sem_br w b))
  /\ (forall s, wf_sq s = true -> eqv (opt_den (tree_sq s)) (sem_sq w s))
  /\ (forall a, wf_atom a = true -> eqv (den (tree_atom a)) (sem_atom w a)).
Proof.
  apply rx_all_ind; cbn [wf wf_br wf_sq wf_atom sem sem_br sem_sq sem_atom tree_bs tree_br tree_sq tree_atom].
  - intros b Hb H. cbn [map kidso alts]. auto.
  - intros b Hb r Hr H. apply andb_true_iff in H as [A B]. specialize (Hb A). specialize (Hr B).
    cbn [map kidso]. rewrite alts_cons by (destruct r; discriminate). apply eqv_or; [assumption|].
    destruct r; exact Hr.
  - intros a s Hs H. assert (W : wf_sq s = true) by (destruct s; [discriminate|exact H]). specialize (Hs W).
    destruct a.
    + eapply eqv_trans; [apply den_followed; reflexivity|]. apply eqv_seq; [|exact Hs].
      cbn [den map kidso]. apply eqv_seq_eps.
    + destruct (tree_sq s) as [n|] eqn:E; [exact Hs|]. destruct s; [discriminate H|discriminate E].
  - intros _. apply eqv_refl.
  - intros a Ha q s Hs H. rewrite !andb_true_iff in H. destruct H as [[A B] C]. cbn [opt_den].
    eapply eqv_trans; [apply den_followed; apply childless_quant, childless_atom|].
    apply eqv_seq; [|now apply Hs].
    eapply eqv_trans; [apply den_quant; [exact B|apply childless_atom]|].
    destruct q; cbn [quant_o]; [now apply Ha|]. apply eqv_rep. now apply Ha.
  - intro x. apply den_elem.
  - intros i r Hr H. cbn [den map kidso]. eapply eqv_trans; [apply eqv_seq_eps|]. apply eqv_cap.
    specialize (Hr H). exact Hr.
  - intros r Hr H. cbn [den map kidso]. eapply eqv_trans; [apply eqv_seq_eps|]. exact (Hr H).
Qed.
Lemma den_tree r : wf r = true -> eqv (den (tree r)) (sem w r).
Proof. apply den_all. Qed.
End Den.
