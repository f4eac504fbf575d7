(** C58: what the text reports contain. *)
From Coq Require Import String Ascii List Bool Arith ZArith Lia Decimal DecimalString DecimalFacts DecimalPos DecimalZ.
From Verif Require Import Scalar Structs Report.
Import ListNotations.
Local Open Scope string_scope.

(** ** Vocabulary *)

(** c occurs in s *)
Fixpoint occurs (c : ascii) (s : string) : Prop :=
  match s with EmptyString => False | String a s' => a = c \/ occurs c s' end.

(** Split at line feeds; the text after the last line feed is dropped if empty. *)
Fixpoint lines_from (cur : string) (s : string) : list string :=
  match s with
  | EmptyString => match cur with EmptyString => [] | _ => [cur] end
  | String a s' => if Ascii.eqb a LF then cur :: lines_from EmptyString s' else lines_from (cur ++ String a EmptyString) s'
  end.
Definition lines (s : string) : list string := lines_from EmptyString s.

(** s starts with p *)
Fixpoint starts_with (p s : string) : bool :=
  match p, s with
  | EmptyString, _ => true
  | String a p', String b s' => Ascii.eqb a b && starts_with p' s'
  | String _ _, EmptyString => false
  end.

(** Remove terminal escape sequences: everything from ESC to the next "m". *)
Fixpoint strip (inside : bool) (s : string) : string :=
  match s with
  | EmptyString => EmptyString
  | String a s' =>
      if inside then strip (negb (Ascii.eqb a "m"%char)) s'
      else if Ascii.eqb a ESC then strip true s' else String a (strip false s')
  end.

(** What is assumed about fmt's conversion of doubles: the result contains no line feed, ESC, comma or space. *)
Definition clean (s : string) : Prop :=
  ~ occurs LF s /\ ~ occurs ESC s /\ ~ occurs ","%char s /\ ~ occurs " "%char s.
Definition clean_formats {F} (fm : Formats F) : Prop :=
  forall x, clean (fmt_any fm x) /\ clean (fmt_e16 fm x) /\ clean (fmt_f16 fm x) /\ clean (fmt_f10 fm x).

(** ** Strings *)
Lemma app_assoc_s : forall a b c : string, (a ++ b) ++ c = a ++ (b ++ c).
Proof. induction a; intros; simpl; [reflexivity|]. rewrite IHa. reflexivity. Qed.
Lemma app_nil_s : forall a : string, a ++ "" = a.
Proof. induction a; simpl; [reflexivity|]. rewrite IHa. reflexivity. Qed.
Lemma occurs_app : forall c a b, occurs c (a ++ b) <-> occurs c a \/ occurs c b.
Proof. induction a; intro b; simpl; [tauto|]. rewrite IHa. tauto. Qed.

Lemma lines_from_line : forall l cur s, ~ occurs LF l -> lines_from cur (l ++ nl ++ s) = (cur ++ l) :: lines s.
Proof.
  induction l as [|a l IH]; intros cur s H.
  - rewrite app_nil_s. reflexivity.
  - cbn [append lines_from]. destruct (Ascii.eqb_spec a LF) as [E|E]; [exfalso; apply H; left; exact E|].
    rewrite IH by (intro X; apply H; right; exact X). rewrite app_assoc_s. reflexivity.
Qed.
Lemma lines_line : forall l s, ~ occurs LF l -> lines (l ++ nl ++ s) = l :: lines s.
Proof. intros. apply (lines_from_line l EmptyString s H). Qed.

(** Concatenation of lines, each followed by a line feed. *)
Fixpoint unlines (l : list string) : string := match l with [] => "" | s :: t => s ++ nl ++ unlines t end.
Lemma unlines_app : forall a b, unlines (a ++ b) = unlines a ++ unlines b.
Proof.
  induction a as [|x a IH]; intro b; [reflexivity|]. cbn [Datatypes.app unlines].
  rewrite IH, !app_assoc_s. reflexivity.
Qed.
Lemma lines_unlines : forall l, Forall (fun s => ~ occurs LF s) l -> lines (unlines l) = l.
Proof.
  induction l as [|s l IH]; intro H; [reflexivity|]. inversion_clear H. cbn [unlines].
  rewrite lines_line by assumption. rewrite IH by assumption. reflexivity.
Qed.

Lemma strip_plain : forall a b, ~ occurs ESC a -> strip false (a ++ b) = a ++ strip false b.
Proof.
  induction a as [|c a IH]; intros b H; [reflexivity|]. simpl. destruct (Ascii.eqb_spec c ESC) as [E|E]; [exfalso; apply H; left; exact E|].
  rewrite IH by (intro X; apply H; right; exact X). reflexivity.
Qed.
Lemma strip_colour : forall c u b, strip false (ColorFmt c u ++ b) = strip false b.
Proof. intros [| | |] [|] b; reflexivity. Qed.

Lemma not_occurs_app : forall c a b, ~ occurs c a -> ~ occurs c b -> ~ occurs c (a ++ b).
Proof. intros c a b H1 H2 H. apply occurs_app in H. tauto. Qed.
Lemma not_occurs_cons : forall c a b, a <> c -> ~ occurs c b -> ~ occurs c (String a b).
Proof. intros c a b H1 H2 [H|H]; tauto. Qed.

(** ** Decimal integers *)
Lemma uint_clean : forall u, clean (NilEmpty.string_of_uint u).
Proof.
  assert (H : forall u c, occurs c (NilEmpty.string_of_uint u) -> c <> LF /\ c <> ESC /\ c <> ","%char /\ c <> " "%char).
  { induction u; intros c Hc; simpl in Hc; [contradiction|..]; (destruct Hc as [<-|Hc]; [repeat split; discriminate|apply IHu; exact Hc]). }
  intro u. repeat split; intro X; destruct (H u _ X) as (A & B & C & D); congruence.
Qed.
Lemma int_clean : forall z, clean (fmt_int z).
Proof.
  intro z. unfold fmt_int.
  assert (U : forall u, clean (NilZero.string_of_uint u)).
  { intros []; try (apply uint_clean). repeat split; intros [X|[]]; discriminate. }
  destruct (Z.to_int z) as [u|u]; cbn [NilZero.string_of_int]; [apply U|].
  destruct (U u) as (A & B & C & D). repeat split; (apply not_occurs_cons; [discriminate|assumption]).
Qed.
Lemma fmt_int_inj : forall a b, fmt_int a = fmt_int b -> a = b.
Proof.
  intros a b H. unfold fmt_int in H.
  assert (N : forall z, Z.to_int z <> Decimal.Pos Nil /\ Z.to_int z <> Decimal.Neg Nil).
  { intro z. destruct z as [|p|p]; cbn [Z.to_int]; split; try discriminate; intro E; injection E as E.
    - apply (DecimalPos.Unsigned.to_uint_nonnil p E).
    - apply (DecimalPos.Unsigned.to_uint_nonnil p E). }
  apply (f_equal NilZero.int_of_string) in H. rewrite !NilZero.isi in H by apply N. injection H as H.
  apply (f_equal Z.of_int) in H. rewrite !DecimalZ.of_to in H. exact H.
Qed.

(** ** The lines of a report *)
Section Lines.
  Context {F : Type} {O : Ops F}.
  Variable fm : Formats F.
  Notation "a +++ b" := (@Datatypes.app string a b) (right associativity, at level 60).

  Definition qp_lines (it : QPInteriorPointIteration F) : list string :=
    let ki := kkt_initial it in let kf := kkt_final it in let ip := ip_outputs it in
    (("Iteration summary: ||kkt|| max: " ++ fmt_any fm (KKT_Max ki) ++ " --> " ++ fmt_any fm (KKT_Max kf)
      ++ ", mu = " ++ fmt_any fm (ip_mu ip) ++ ", a_p = " ++ fmt_any fm (primal (ip_alpha ip))
      ++ ", a_d = " ++ fmt_any fm (dual (ip_alpha ip))) ::
     (if negb (fisnan (ip_mu_affine ip)) then
        [" Probe alphas: a_p = " ++ fmt_any fm (primal (ip_alpha_probe ip)) ++ ", a_d = "
            ++ fmt_any fm (dual (ip_alpha_probe ip)) ++ ", mu_affine = " ++ fmt_any fm (ip_mu_affine ip)] else []) +++
     [" KKT errors, L2:";
      " r_dual = " ++ fmt_any fm (r_dual ki) ++ " --> " ++ fmt_any fm (r_dual kf);
      " r_comp = " ++ fmt_any fm (r_comp ki) ++ " --> " ++ fmt_any fm (r_comp kf);
      " r_p_eq = " ++ fmt_any fm (r_primal_eq ki) ++ " --> " ++ fmt_any fm (r_primal_eq kf);
      " r_p_ineq = " ++ fmt_any fm (r_primal_ineq ki) ++ " --> " ++ fmt_any fm (r_primal_ineq kf)]).

  (** "  f(i): ..., c(i): ..., total: ..., alpha = ..." *)
  Definition step_line (penalty : F) (i : nat) (s : LineSearchStep F) : string :=
    "  f(" ++ fmt_int (Z.of_nat i) ++ "): " ++ fmt_e16 fm (err_f (step_errors s)) ++ ", c(" ++ fmt_int (Z.of_nat i) ++ "): "
      ++ fmt_e16 fm (err_equality (step_errors s)) ++ ", total: " ++ fmt_e16 fm (Errors_Total (step_errors s) penalty)
      ++ ", alpha = " ++ fmt_f10 fm (step_alpha s).
  Fixpoint step_lines (penalty : F) (i : nat) (l : list (LineSearchStep F)) : list string :=
    match l with [] => [] | s :: l' => step_line penalty i s :: step_lines penalty (S i) l' end.

  (** "Iteration # n, state = S, lambda = x" *)
  Definition header (it : NLSIteration F) : string :=
    "Iteration # " ++ fmt_int (it_iteration it) ++ ", state = " ++ OptimizerState_str (it_optimizer_state it)
      ++ ", lambda = " ++ fmt_any fm (it_lambda it).
  Definition initial_line (it : NLSIteration F) : string :=
    "  f(0): " ++ fmt_e16 fm (err_f (it_errors_initial it)) ++ ", c(0): " ++ fmt_e16 fm (err_equality (it_errors_initial it))
      ++ ", total: " ++ fmt_e16 fm (Errors_Total (it_errors_initial it) (it_penalty it)).
  Definition result_line (uc : bool) (it : NLSIteration F) : string :=
    "  Search result: " ++ ColorFmt (match it_step_result it with SS_SUCCESS => GREEN | _ => RED end) uc
      ++ StepSizeSelectionResult_str (it_step_result it) ++ ColorFmt NONE_COLOR uc.
  Definition ip_iterations (it : NLSIteration F) : list (QPInteriorPointIteration F) :=
    match it_qp_outputs it with InteriorPointOut ip => qp_iterations ip | NullSpaceOut _ => [] end.

  Definition body (uc iq : bool) (it : NLSIteration F) : list string :=
    (initial_line it ::
     match it_qp_eigenvalues it with
     | Some e => ["  min, max, |min| eig = " ++ fmt_e16 fm (eig_min e) ++ ", " ++ fmt_e16 fm (eig_max e) ++ ", "
                     ++ fmt_e16 fm (eig_abs_min e)]
     | None => [] end +++
     ["  penalty = " ++ fmt_f16 fm (it_penalty it);
      match it_qp_outputs it with
       | InteriorPointOut ip => "  QP-IP: " ++ QPInteriorPointTerminationState_str (qp_termination_state ip) ++ ", "
                                  ++ fmt_int (Z.of_nat (List.length (qp_iterations ip)))
       | NullSpaceOut ns => "  QP: " ++ QPNullSpaceTerminationState_str ns
       end;
      "  df/dalpha = " ++ fmt_any fm (d_f (it_directional_derivatives it)) ++ ", dc/dalpha = "
        ++ fmt_any fm (d_equality (it_directional_derivatives it));
      result_line uc it] +++
     step_lines (it_penalty it) 0 (it_line_search_steps it) +++
     (if iq then flat_map qp_lines (ip_iterations it) else [])).

  Definition last_line (uc : bool) (o : NLSSolverOutputs F) : string :=
    "  termination = " ++ ColorFmt (ColorFromTerminationState (out_termination_state o)) uc
      ++ NLSTerminationState_str (out_termination_state o) ++ ColorFmt NONE_COLOR uc.
  Definition report_lines (uc iq : bool) (o : NLSSolverOutputs F) : list string :=
    (flat_map (fun it => header it :: body uc iq it) (out_iterations o) +++ [last_line uc o]).

  Lemma fold_app_s : forall A (f : A -> string) (g : A -> list string), (forall a, f a = unlines (g a)) ->
    forall l, fold_left (fun r x => r ++ f x) l "" = unlines (flat_map g l).
  Proof.
    intros A f g H l. assert (G : forall l acc, fold_left (fun r x => r ++ f x) l acc = acc ++ unlines (flat_map g l)).
    { induction l0 as [|a l0 IH]; intro acc; cbn [fold_left flat_map unlines]; [rewrite app_nil_s; reflexivity|].
      rewrite IH, unlines_app, H, app_assoc_s. reflexivity. }
    apply (G l "").
  Qed.

  Lemma qp_unlines : forall it, QPIteration_ToString fm it = unlines (qp_lines it).
  Proof.
    intro it. unfold QPIteration_ToString, qp_lines. cbn [unlines]. rewrite unlines_app.
    destruct (negb (fisnan (ip_mu_affine (ip_outputs it)))); cbn [unlines]; repeat (rewrite app_assoc_s; cbn [append]); rewrite ?app_nil_s; reflexivity.
  Qed.
  Lemma steps_unlines : forall p l i, steps_ToString fm p i l = unlines (step_lines p i l).
  Proof.
    induction l as [|s l IH]; intro i; [reflexivity|]. cbn [steps_ToString step_lines unlines]. rewrite IH. unfold step_line.
    repeat (rewrite app_assoc_s; cbn [append]). reflexivity.
  Qed.
  Lemma iter_unlines : forall uc iq it, NLSIteration_ToString fm uc iq it = unlines (header it :: body uc iq it).
  Proof.
    intros uc iq it. unfold NLSIteration_ToString, body, ip_iterations. cbn [unlines Datatypes.app]. rewrite !unlines_app. cbn [unlines].
    rewrite !unlines_app, steps_unlines.
    unfold header, initial_line, result_line.
    destruct (it_qp_eigenvalues it), (it_qp_outputs it), iq; rewrite ?(fold_app_s _ _ qp_lines qp_unlines);
      cbn [unlines flat_map]; repeat (rewrite app_assoc_s; cbn [append]); rewrite ?app_nil_s; reflexivity.
  Qed.
  Lemma report_unlines : forall uc iq o, NLSOutputs_ToString fm uc iq o = unlines (report_lines uc iq o).
  Proof.
    intros. unfold NLSOutputs_ToString, report_lines, last_line.
    rewrite (fold_app_s _ _ (fun it => header it :: body uc iq it) (iter_unlines uc iq)).
    rewrite unlines_app. cbn [unlines]. repeat (rewrite app_assoc_s; cbn [append]). rewrite ?app_nil_s. reflexivity.
  Qed.
End Lines.

Ltac splits_ := repeat match goal with |- _ /\ _ => split end.
Ltac lit := simpl; intuition discriminate.

Section Results.
  Context {F : Type} {O : Ops F}.
  Variable fm : Formats F.
  Hypothesis CF : clean_formats fm.
  Notation "a +++ b" := (@Datatypes.app string a b) (right associativity, at level 60).

  (** A character other than those of the fixed text and colour codes: LF, or ESC in uncoloured text. *)
  Definition absent (c : ascii) (uc : bool) : Prop := c = LF \/ c = ESC /\ uc = false.

  Lemma any_ok : forall c uc x, absent c uc -> ~ occurs c (fmt_any fm x).
  Proof. intros c uc x [-> |[-> _]]; apply (CF x). Qed.
  Lemma e16_ok : forall c uc x, absent c uc -> ~ occurs c (fmt_e16 fm x).
  Proof. intros c uc x [-> |[-> _]]; apply (CF x). Qed.
  Lemma f16_ok : forall c uc x, absent c uc -> ~ occurs c (fmt_f16 fm x).
  Proof. intros c uc x [-> |[-> _]]; apply (CF x). Qed.
  Lemma f10_ok : forall c uc x, absent c uc -> ~ occurs c (fmt_f10 fm x).
  Proof. intros c uc x [-> |[-> _]]; apply (CF x). Qed.
  Lemma int_ok : forall c uc z, absent c uc -> ~ occurs c (fmt_int z).
  Proof. intros c uc z [-> |[-> _]]; apply (int_clean z). Qed.
  Lemma colour_ok : forall c uc k, absent c uc -> ~ occurs c (ColorFmt k uc).
  Proof. intros c uc k [-> |[-> ->]]; [destruct uc, k; lit|destruct k; lit]. Qed.

  Ltac clean_line A :=
    repeat first
      [ apply not_occurs_app
      | exact (any_ok _ _ _ A) | exact (e16_ok _ _ _ A) | exact (f16_ok _ _ _ A) | exact (f10_ok _ _ _ A) | exact (int_ok _ _ _ A)
      | exact (colour_ok _ _ _ A)
      | solve [destruct A as [-> |[-> _]]; lit] ].

  Lemma qp_lines_ok : forall c uc it, absent c uc -> Forall (fun s => ~ occurs c s) (qp_lines fm it).
  Proof.
    intros c uc it A. unfold qp_lines. apply Forall_cons; [clean_line A|]. apply Forall_app. split.
    - destruct (negb _); repeat constructor; clean_line A.
    - repeat constructor; clean_line A.
  Qed.
  Lemma step_lines_ok : forall c uc p l i, absent c uc -> Forall (fun s => ~ occurs c s) (step_lines fm p i l).
  Proof.
    intros c uc p l. induction l as [|s l IH]; intros i A; cbn [step_lines]; constructor; [|apply IH; exact A].
    unfold step_line. clean_line A.
  Qed.
  Lemma body_ok : forall c uc iq it, absent c uc -> Forall (fun s => ~ occurs c s) (body fm uc iq it).
  Proof.
    intros c uc iq it A. unfold body, initial_line, result_line. apply Forall_cons; [clean_line A|]. apply Forall_app. split.
    - destruct (it_qp_eigenvalues it); repeat constructor; clean_line A.
    - apply Forall_app. split; [|apply Forall_app; split; [apply (step_lines_ok c uc); exact A|]].
      + repeat constructor; clean_line A.
        * destruct (it_qp_outputs it) as [t|ip]; [destruct t|destruct (qp_termination_state ip)]; clean_line A.
        * destruct (it_step_result it); clean_line A.
      + destruct iq; [|constructor]. apply Forall_flat_map. apply Forall_forall. intros x _. apply (qp_lines_ok c uc). exact A.
  Qed.
  Lemma header_ok : forall c uc it, absent c uc -> ~ occurs c (header fm it).
  Proof. intros c uc it A. unfold header. destruct (it_optimizer_state it); clean_line A. Qed.
  Lemma report_ok : forall c uc iq o, absent c uc -> Forall (fun s => ~ occurs c s) (report_lines fm uc iq o).
  Proof.
    intros c uc iq o A. unfold report_lines. apply Forall_app. split.
    - apply Forall_flat_map. apply Forall_forall. intros x _. constructor; [apply (header_ok c uc); exact A|apply body_ok; exact A].
    - constructor; [|constructor]. unfold last_line. destruct (out_termination_state o); clean_line A.
  Qed.

  Lemma report_is_lines : forall uc iq o, lines (NLSOutputs_ToString fm uc iq o) = report_lines fm uc iq o.
  Proof. intros. rewrite report_unlines. apply lines_unlines. apply (report_ok LF uc). left. reflexivity. Qed.

  (** Without colour the report contains no escape character. *)
  Theorem C58_no_escape_without_colour : forall iq o, ~ occurs ESC (NLSOutputs_ToString fm false iq o).
  Proof.
    intros iq o. rewrite report_unlines. pose proof (report_ok ESC false iq o (or_intror (conj eq_refl eq_refl))) as H.
    revert H. generalize (report_lines fm false iq o). induction l as [|s l IH]; intro H; [intros []|]. inversion_clear H. cbn [unlines].
    apply not_occurs_app; [assumption|]. apply not_occurs_app; [lit|apply IH; assumption].
  Qed.

  (** *** Colours *)
  Definition stripped (a b : string) : Prop := forall rest, strip false (a ++ rest) = b ++ strip false rest.
  Lemma stripped_same : forall a, ~ occurs ESC a -> stripped a a.
  Proof. intros a H rest. apply strip_plain. exact H. Qed.
  Lemma stripped_colour : forall k u, stripped (ColorFmt k u) "".
  Proof. intros k u rest. apply strip_colour. Qed.
  Lemma stripped_app : forall a a' b b', stripped a a' -> stripped b b' -> stripped (a ++ b) (a' ++ b').
  Proof. intros a a' b b' H1 H2 rest. rewrite app_assoc_s, H1, H2, app_assoc_s. reflexivity. Qed.
  Lemma stripped_all : forall l, Forall (fun s => ~ occurs ESC s) l -> Forall2 stripped l l.
  Proof. induction 1; constructor; [apply stripped_same|]; assumption. Qed.
  Lemma stripped_unlines : forall la lb, Forall2 stripped la lb -> strip false (unlines la) = unlines lb.
  Proof.
    induction 1 as [|a b la lb H _ IH]; [reflexivity|]. cbn [unlines]. rewrite H, strip_plain by lit. rewrite IH. reflexivity.
  Qed.
  Lemma stripped_result : forall it : NLSIteration F, stripped (result_line true it) (result_line false it).
  Proof.
    intro it. unfold result_line. apply stripped_app; [apply stripped_same; lit|].
    apply (stripped_app _ ""); [apply stripped_colour|]. apply stripped_app; [apply stripped_same; destruct (it_step_result it); lit|].
    apply (stripped_colour NONE_COLOR).
  Qed.
  Lemma stripped_body : forall iq it, Forall2 stripped (body fm true iq it) (body fm false iq it).
  Proof.
    intros iq it. pose proof (body_ok ESC false iq it (or_intror (conj eq_refl eq_refl))) as H. unfold body in *.
    pose proof (Forall_inv H) as H1. pose proof (Forall_inv_tail H) as H2. clear H. cbv beta in H1. apply Forall_app in H2. destruct H2 as [H2 H3]. apply Forall_app in H3. destruct H3 as [H3 H4].
    constructor; [apply stripped_same; exact H1|].
    apply Forall2_app; [apply stripped_all; exact H2|]. apply Forall2_app; [|apply stripped_all; exact H4].
    pose proof (Forall_inv H3) as A1. pose proof (Forall_inv_tail H3) as B1.
    pose proof (Forall_inv B1) as A2. pose proof (Forall_inv_tail B1) as B2.
    pose proof (Forall_inv B2) as A3. clear B2 B1 H3. cbv beta in A1, A2, A3.
    repeat (constructor; [solve [apply stripped_same; assumption|apply stripped_result]|]). constructor.
  Qed.

  (** Removing the escape sequences from a coloured report gives the uncoloured report. *)
  Theorem C58_colour_is_decoration : forall iq o,
    strip false (NLSOutputs_ToString fm true iq o) = NLSOutputs_ToString fm false iq o.
  Proof.
    intros iq o. rewrite !report_unlines. apply stripped_unlines. unfold report_lines. apply Forall2_app.
    - induction (out_iterations o) as [|it l IH]; cbn [flat_map]; [constructor|]. apply Forall2_app; [|exact IH].
      constructor; [|apply stripped_body]. apply stripped_same. apply (header_ok ESC false). right. split; reflexivity.
    - constructor; [|constructor]. unfold last_line. apply stripped_app; [apply stripped_same; lit|].
      apply (stripped_app _ ""); [apply stripped_colour|]. apply stripped_app; [apply stripped_same; destruct (out_termination_state o); lit|].
      apply (stripped_colour NONE_COLOR).
  Qed.

  (** *** Structure *)
  Lemma filter_none : forall (f : string -> bool) l, Forall (fun s => f s = false) l -> filter f l = [].
  Proof. intros f l. induction 1; simpl; [reflexivity|]. rewrite H. exact IHForall. Qed.
  Lemma filter_app_s : forall (f : string -> bool) a b, filter f (a +++ b) = filter f a +++ filter f b.
  Proof. intros. apply filter_app. Qed.
  Lemma filter_all : forall (f : string -> bool) l, Forall (fun s => f s = true) l -> filter f l = l.
  Proof. intros f l. induction 1; simpl; [reflexivity|]. rewrite H, IHForall. reflexivity. Qed.
  Lemma filter_flat_map : forall A (f : string -> bool) (g : A -> list string) l, filter f (flat_map g l) = flat_map (fun a => filter f (g a)) l.
  Proof. induction l; simpl; [reflexivity|]. rewrite filter_app, IHl. reflexivity. Qed.


  (** Which prefixes the lines have. *)
  Definition P_header := starts_with "Iteration # ".
  Definition P_result := starts_with "  Search result: ".
  Definition P_errors := starts_with "  f(".
  Definition P_qp := starts_with "Iteration summary: ".

  Lemma qp_lines_prefix : forall it, filter P_header (qp_lines fm it) = [] /\ filter P_result (qp_lines fm it) = [] /\
    filter P_errors (qp_lines fm it) = [] /\ length (filter P_qp (qp_lines fm it)) = 1%nat.
  Proof.
    intro it. unfold qp_lines. cbn [filter]. rewrite !filter_app_s. destruct (negb _); repeat split; reflexivity.
  Qed.
  Lemma step_lines_prefix : forall p l i, filter P_header (step_lines fm p i l) = [] /\ filter P_result (step_lines fm p i l) = [] /\
    filter P_errors (step_lines fm p i l) = step_lines fm p i l /\ filter P_qp (step_lines fm p i l) = [].
  Proof.
    intros p l. induction l as [|s l IH]; intro i; [repeat split; reflexivity|]. destruct (IH (S i)) as (A & B & C & D).
    cbn [step_lines filter]. change (P_header (step_line fm p i s)) with false. change (P_result (step_line fm p i s)) with false.
    change (P_errors (step_line fm p i s)) with true. change (P_qp (step_line fm p i s)) with false. cbv iota. rewrite C. auto.
  Qed.
  Lemma step_lines_length : forall p l i, length (step_lines fm p i l) = length l.
  Proof. intros p l. induction l; intro i; simpl; [reflexivity|]. rewrite IHl. reflexivity. Qed.

  Lemma body_prefix : forall uc iq it, filter P_header (body fm uc iq it) = [] /\
    filter P_result (body fm uc iq it) = [result_line uc it] /\
    filter P_errors (body fm uc iq it) = initial_line fm it :: step_lines fm (it_penalty it) 0 (it_line_search_steps it) /\
    length (filter P_qp (body fm uc iq it)) = if iq then length (ip_iterations it) else 0%nat.
  Proof.
    intros uc iq it. unfold body. cbn [filter]. rewrite !filter_app_s.
    destruct (step_lines_prefix (it_penalty it) (it_line_search_steps it) 0) as (A & B & C & D). rewrite A, B, C, D.
    assert (Q : forall f, (forall x, filter f (qp_lines fm x) = []) -> filter f (if iq then flat_map (qp_lines fm) (ip_iterations it) else []) = []).
    { intros f H. destruct iq; [|reflexivity]. rewrite filter_flat_map. induction (ip_iterations it) as [|x l IH]; [reflexivity|].
      cbn [flat_map]. rewrite H. exact IH. }
    rewrite (Q P_header), (Q P_result), (Q P_errors) by (intro x; apply (qp_lines_prefix x)).
    assert (NQ : length (filter P_qp (if iq then flat_map (qp_lines fm) (ip_iterations it) else [])) = if iq then length (ip_iterations it) else 0%nat).
    { clear Q. destruct iq; [|reflexivity]. rewrite filter_flat_map. induction (ip_iterations it) as [|x l IH]; [reflexivity|].
      cbn [flat_map length].
      rewrite app_length, IH.
      destruct (qp_lines_prefix x) as (_ & _ & _ & ->). reflexivity. }
    destruct (it_qp_eigenvalues it), (it_qp_outputs it) as [t|ip]; rewrite ?List.app_nil_r; repeat split; try reflexivity; exact NQ.
  Qed.

  (** The uncoloured report, line by line: it ends with the line that names the termination state; the lines starting with
      "Iteration # " are, in order, one per iteration, with its number, state and lambda; likewise the "Search result" lines;
      the number of lines reporting errors "  f(" is the number of iterations plus NumLineSearchSteps; the interior point
      iterations are listed only if asked for, and then all of them. *)
  Theorem C58_report_structure : forall iq o,
    let ls := lines (NLSOutputs_ToString fm false iq o) in
    last ls "" = "  termination = " ++ NLSTerminationState_str (out_termination_state o) /\
    filter (starts_with "Iteration # ") ls =
      map (fun it => "Iteration # " ++ fmt_int (it_iteration it) ++ ", state = " ++ OptimizerState_str (it_optimizer_state it)
                       ++ ", lambda = " ++ fmt_any fm (it_lambda it)) (out_iterations o) /\
    filter (starts_with "  Search result: ") ls =
      map (fun it => "  Search result: " ++ StepSizeSelectionResult_str (it_step_result it)) (out_iterations o) /\
    length (filter (starts_with "  f(") ls) = (length (out_iterations o) + NumLineSearchSteps o)%nat /\
    length (filter (starts_with "Iteration summary: ") ls) =
      if iq then list_sum (map (fun it => length (ip_iterations it)) (out_iterations o)) else 0%nat.
  Proof.
    intros iq o ls. unfold ls. rewrite report_is_lines. unfold report_lines.
    fold P_header P_result P_errors P_qp. rewrite last_last, !filter_app_s.
    splits_.
    - unfold last_line. cbn [ColorFmt append]. rewrite app_nil_s. reflexivity.
    - change (filter P_header [last_line false o]) with (@nil string). rewrite List.app_nil_r, filter_flat_map.
      induction (out_iterations o) as [|it l IH]; [reflexivity|]. cbn [flat_map map]. rewrite IH. cbn [filter].
      change (P_header (header fm it)) with true. cbv iota. destruct (body_prefix false iq it) as (-> & _). reflexivity.
    - change (filter P_result [last_line false o]) with (@nil string). rewrite List.app_nil_r, filter_flat_map.
      induction (out_iterations o) as [|it l IH]; [reflexivity|]. cbn [flat_map map]. rewrite IH. cbn [filter].
      change (P_result (header fm it)) with false. cbv iota. destruct (body_prefix false iq it) as (_ & -> & _).
      unfold result_line. cbn [ColorFmt append]. rewrite app_nil_s. reflexivity.
    - change (filter P_errors [last_line false o]) with (@nil string). rewrite List.app_nil_r, filter_flat_map.
      unfold NumLineSearchSteps. assert (G : forall l n, (length (flat_map (fun it => filter P_errors (header fm it :: body fm false iq it)) l) + n =
        length l + fold_left (fun t (it : NLSIteration F) => t + length (it_line_search_steps it)) l n)%nat).
      { induction l as [|it l IH]; intro n; [reflexivity|]. cbn [flat_map fold_left]. rewrite app_length. specialize (IH (n + length (it_line_search_steps it))%nat). cbn [filter] in IH |- *.
        change (P_errors (header fm it)) with false. cbv iota. destruct (body_prefix false iq it) as (_ & _ & -> & _).
        cbn [length]. rewrite step_lines_length. lia. }
      specialize (G (out_iterations o) 0%nat). rewrite Nat.add_0_r in G. exact G.
    - change (filter P_qp [last_line false o]) with (@nil string). rewrite List.app_nil_r, filter_flat_map.
      induction (out_iterations o) as [|it l IH]; [destruct iq; reflexivity|]. cbn [flat_map map list_sum fold_right].
      rewrite app_length, IH. cbn [filter]. change (P_qp (header fm it)) with false. cbv iota. destruct (body_prefix false iq it) as (_ & _ & _ & ->). destruct iq; reflexivity.
  Qed.

  (** The probe steps of an interior point iteration are printed exactly if its mu_affine is a number (it is equal to itself): in
      order, and only if the interior point iterations are asked for. *)
  Definition P_probe := starts_with " Probe alphas: ".
  Definition is_number (x : F) : bool := feqb x x.
  Theorem C58_probe_lines : forall iq o,
    filter (starts_with " Probe alphas: ") (lines (NLSOutputs_ToString fm false iq o)) =
    if iq then
      map (fun q => " Probe alphas: a_p = " ++ fmt_any fm (primal (ip_alpha_probe (ip_outputs q)))
                    ++ ", a_d = " ++ fmt_any fm (dual (ip_alpha_probe (ip_outputs q)))
                    ++ ", mu_affine = " ++ fmt_any fm (ip_mu_affine (ip_outputs q)))
        (filter (fun q => is_number (ip_mu_affine (ip_outputs q))) (flat_map ip_iterations (out_iterations o)))
    else [].
  Proof.
    intros iq o. rewrite report_is_lines. unfold report_lines. fold P_probe. rewrite filter_app_s.
    change (filter P_probe [last_line false o]) with (@nil string). rewrite List.app_nil_r, filter_flat_map.
    assert (ST : forall p l i, filter P_probe (step_lines fm p i l) = []).
    { intros p l. induction l as [|s l IH]; intro i; [reflexivity|]. cbn [step_lines filter]. change (P_probe (step_line fm p i s)) with false.
      cbv iota. apply IH. }
    assert (BODY : forall it, filter P_probe (header fm it :: body fm false iq it) =
                         if iq then flat_map (fun q => filter P_probe (qp_lines fm q)) (ip_iterations it) else []).
    { intro it. cbn [filter]. change (P_probe (header fm it)) with false. cbv iota. unfold body. cbn [filter]. rewrite !filter_app_s, ST.
      assert (Q : filter P_probe (if iq then flat_map (qp_lines fm) (ip_iterations it) else []) =
                  if iq then flat_map (fun q => filter P_probe (qp_lines fm q)) (ip_iterations it) else []).
      { destruct iq; [|reflexivity]. apply filter_flat_map. }
      destruct (it_qp_eigenvalues it), (it_qp_outputs it) as [t|ip]; rewrite ?List.app_nil_r; try exact Q;
        cbn [filter app]; repeat (match goal with |- context [P_probe ?x] => change (P_probe x) with false; cbv iota end);
        rewrite ?List.app_nil_r; exact Q. }
    assert (ONE : forall q, filter P_probe (qp_lines fm q) =
        if is_number (ip_mu_affine (ip_outputs q)) then
          [" Probe alphas: a_p = " ++ fmt_any fm (primal (ip_alpha_probe (ip_outputs q)))
             ++ ", a_d = " ++ fmt_any fm (dual (ip_alpha_probe (ip_outputs q)))
             ++ ", mu_affine = " ++ fmt_any fm (ip_mu_affine (ip_outputs q))] else []).
    { intro q. unfold qp_lines. cbn [filter]. rewrite !filter_app_s. unfold fisnan, is_number. rewrite negb_involutive.
      destruct (feqb _ _); reflexivity. }
    induction (out_iterations o) as [|it l IH]; [destruct iq; reflexivity|]. cbn [flat_map]. rewrite IH, BODY. destruct iq; [|reflexivity].
    rewrite filter_app, map_app. f_equal. induction (ip_iterations it) as [|q r IHq]; [reflexivity|]. cbn [flat_map filter].
    rewrite ONE, IHq. destruct (is_number _); reflexivity.
  Qed.

  (** *** Meaning of the colours *)
  Definition painted (code : string) (s : string) : string := String ESC ("[38;5;" ++ code ++ "m") ++ s ++ String ESC "[0m".

  (** The termination state is green (112) exactly if a tolerance was satisfied, red (160) exactly for QP_INDEFINITE and
      orange (202) otherwise; a search result is green exactly for SUCCESS and red otherwise. *)
  Theorem C58_colours : forall iq o,
    let ls := lines (NLSOutputs_ToString fm true iq o) in
    last ls "" = "  termination = " ++
      painted (if TerminationStateIndicatesSatisfiedTol (out_termination_state o) then "112"
               else match out_termination_state o with QP_INDEFINITE => "160" | _ => "202" end)
              (NLSTerminationState_str (out_termination_state o)) /\
    filter (starts_with "  Search result: ") ls =
      map (fun it => "  Search result: " ++
             painted (match it_step_result it with SS_SUCCESS => "112" | _ => "160" end) (StepSizeSelectionResult_str (it_step_result it)))
          (out_iterations o).
  Proof.
    intros iq o ls. unfold ls. rewrite report_is_lines. unfold report_lines. fold P_result. rewrite last_last, !filter_app_s. split.
    - unfold last_line, painted. destruct (out_termination_state o); reflexivity.
    - assert (E : filter P_result [last_line true o] = []) by (unfold last_line; destruct (out_termination_state o); reflexivity).
      rewrite E, List.app_nil_r, filter_flat_map.
      induction (out_iterations o) as [|it l IH]; [reflexivity|]. cbn [flat_map map]. rewrite IH. cbn [filter].
      change (P_result (header fm it)) with false. cbv iota. destruct (body_prefix true iq it) as (_ & -> & _).
      cbn [Datatypes.app]. f_equal. unfold result_line, painted. destruct (it_step_result it); reflexivity.
  Qed.

  (** *** Reading a report back *)
  Definition P_solver := starts_with "  QP".
  Definition solver_line (it : NLSIteration F) : string :=
    match it_qp_outputs it with
    | InteriorPointOut ip => "  QP-IP: " ++ QPInteriorPointTerminationState_str (qp_termination_state ip) ++ ", "
                               ++ fmt_int (Z.of_nat (length (qp_iterations ip)))
    | NullSpaceOut ns => "  QP: " ++ QPNullSpaceTerminationState_str ns
    end.
  Lemma body_solver : forall uc iq it, filter P_solver (body fm uc iq it) = [solver_line it].
  Proof.
    intros uc iq it. unfold body. cbn [filter]. rewrite !filter_app_s.
    assert (S0 : forall l i, filter P_solver (step_lines fm (it_penalty it) i l) = []).
    { induction l as [|s l IH]; intro i; [reflexivity|]. cbn [step_lines filter].
      change (P_solver (step_line fm (it_penalty it) i s)) with false. cbv iota. apply IH. }
    assert (Q0 : filter P_solver (if iq then flat_map (qp_lines fm) (ip_iterations it) else []) = []).
    { destruct iq; [|reflexivity]. rewrite filter_flat_map. induction (ip_iterations it) as [|x l IH]; [reflexivity|].
      cbn [flat_map]. rewrite IH, List.app_nil_r. unfold qp_lines. cbn [filter]. rewrite filter_app_s. destruct (negb _); reflexivity. }
    rewrite S0, Q0. unfold solver_line. destruct (it_qp_eigenvalues it), (it_qp_outputs it) as [t|ip]; rewrite ?List.app_nil_r; reflexivity.
  Qed.

  Lemma comma_split : forall a a' b b', ~ occurs ","%char a -> ~ occurs ","%char a' ->
    a ++ String "," b = a' ++ String "," b' -> a = a' /\ b = b'.
  Proof.
    induction a as [|x a IH]; intros [|y a'] b b' H H' E; simpl in E.
    - injection E as E. auto.
    - injection E as E1 E2. exfalso. apply H'. left. symmetry. exact E1.
    - injection E as E1 E2. exfalso. apply H. left. exact E1.
    - injection E as -> E. destruct (IH a' b b') as [-> ->]; auto; intro X; [apply H|apply H']; right; exact X.
  Qed.

  Lemma app_inv_s : forall a b c, a ++ b = a ++ c -> b = c.
  Proof. induction a; intros b c H; simpl in H; [exact H|]. injection H as H. apply IHa. exact H. Qed.

  Lemma state_no_comma : forall s, ~ occurs ","%char (OptimizerState_str s).
  Proof. intros []; lit. Qed.
  Lemma qpstate_no_comma : forall s, ~ occurs ","%char (QPInteriorPointTerminationState_str s).
  Proof. intros []; lit. Qed.

  Lemma header_inj : forall a b : NLSIteration F, header fm a = header fm b ->
    it_iteration a = it_iteration b /\ it_optimizer_state a = it_optimizer_state b /\ fmt_any fm (it_lambda a) = fmt_any fm (it_lambda b).
  Proof.
    intros a b H. unfold header in H. apply app_inv_s in H.
    destruct (comma_split _ _ _ _ (proj1 (proj2 (proj2 (int_clean _)))) (proj1 (proj2 (proj2 (int_clean _)))) H) as [E1 E2]. clear H.
    split; [apply fmt_int_inj; exact E1|].
    apply (app_inv_s " state = ") in E2.
    destruct (comma_split _ _ _ _ (state_no_comma _) (state_no_comma _) E2) as [E3 E4].
    split; [destruct (it_optimizer_state a), (it_optimizer_state b); try reflexivity; discriminate|].
    apply (app_inv_s " lambda = "). exact E4.
  Qed.

  Lemma solver_inj : forall a b : NLSIteration F, solver_line a = solver_line b ->
    match it_qp_outputs a, it_qp_outputs b with
    | NullSpaceOut s, NullSpaceOut s' => s = s'
    | InteriorPointOut o, InteriorPointOut o' => qp_termination_state o = qp_termination_state o' /\ length (qp_iterations o) = length (qp_iterations o')
    | _, _ => False
    end.
  Proof.
    intros a b H. unfold solver_line in H. destruct (it_qp_outputs a) as [s|o], (it_qp_outputs b) as [s'|o'].
    - destruct s, s'; try reflexivity; discriminate.
    - discriminate.
    - discriminate.
    - apply app_inv_s in H.
      destruct (comma_split _ _ _ _ (qpstate_no_comma _) (qpstate_no_comma _) H) as [E1 E2].
      apply (app_inv_s " ") in E2. apply fmt_int_inj in E2. split; [|lia].
      destruct (qp_termination_state o), (qp_termination_state o'); try reflexivity; discriminate.
  Qed.

  Lemma result_inj : forall a b : NLSIteration F, result_line false a = result_line false b -> it_step_result a = it_step_result b.
  Proof. intros a b H. unfold result_line in H. destruct (it_step_result a), (it_step_result b); try reflexivity; discriminate. Qed.

  (** A list is cut uniquely in front of its marked elements. *)
  Lemma cut_unique : forall (f : string -> bool) p p' r r',
    Forall (fun s => f s = false) p -> Forall (fun s => f s = false) p' ->
    match r with [] => True | x :: _ => f x = true end -> match r' with [] => True | x :: _ => f x = true end ->
    p +++ r = p' +++ r' -> p = p' /\ r = r'.
  Proof.
    intros f. induction p as [|x p IH]; intros [|y p'] r r' H H' HR HR' E; cbn [Datatypes.app] in E.
    - auto.
    - subst r. inversion H'. congruence.
    - subst r'. inversion H. congruence.
    - injection E as -> E. inversion H. inversion H'. subst. destruct (IH p' r r') as [-> ->]; auto.
  Qed.
  Lemma filter_nil_Forall : forall (f : string -> bool) l, filter f l = [] -> Forall (fun s => f s = false) l.
  Proof.
    intros f. induction l as [|x l IH]; intro H; [constructor|]. simpl in H. destruct (f x) eqn:E; [discriminate|]. constructor; auto.
  Qed.

  Lemma blocks_unique : forall iq l l',
    flat_map (fun it => header fm it :: body fm false iq it) l = flat_map (fun it => header fm it :: body fm false iq it) l' ->
    Forall2 (fun a b => header fm a = header fm b /\ body fm false iq a = body fm false iq b) l l'.
  Proof.
    intros iq. induction l as [|a l IH]; intros [|b l'] H; cbn [flat_map Datatypes.app] in H; try discriminate; [constructor|].
    assert (H1 : header fm a = header fm b) by exact (f_equal (hd EmptyString) H). apply (f_equal (@tl string)) in H. cbn [tl] in H. rename H into H2.
    assert (M : forall k : list (NLSIteration F), match flat_map (fun it => header fm it :: body fm false iq it) k with [] => True | x :: _ => P_header x = true end).
    { intros [|x k]; [exact I|reflexivity]. }
    destruct (cut_unique P_header _ _ _ _ (filter_nil_Forall _ _ (proj1 (body_prefix false iq a))) (filter_nil_Forall _ _ (proj1 (body_prefix false iq b))) (M l) (M l') H2) as [E1 E2].
    constructor; auto.
  Qed.

  (** Two runs with the same report had the same termination state and, iteration by iteration, the same number, state,
      step result, number of line search steps, kind and outcome of the QP solver (and the same number of its iterations), and a
      lambda with the same decimal representation. *)
  Theorem C58_report_readable : forall iq o o',
    NLSOutputs_ToString fm false iq o = NLSOutputs_ToString fm false iq o' ->
    out_termination_state o = out_termination_state o' /\
    Forall2 (fun a b => it_iteration a = it_iteration b /\ it_optimizer_state a = it_optimizer_state b /\
               fmt_any fm (it_lambda a) = fmt_any fm (it_lambda b) /\ it_step_result a = it_step_result b /\
               length (it_line_search_steps a) = length (it_line_search_steps b) /\
               match it_qp_outputs a, it_qp_outputs b with
               | NullSpaceOut s, NullSpaceOut s' => s = s'
               | InteriorPointOut q, InteriorPointOut q' =>
                   qp_termination_state q = qp_termination_state q' /\ length (qp_iterations q) = length (qp_iterations q')
               | _, _ => False
               end) (out_iterations o) (out_iterations o').
  Proof.
    intros iq o o' H. apply (f_equal lines) in H. rewrite !report_is_lines in H. unfold report_lines in H.
    apply app_inj_tail in H. destruct H as [H1 H2]. split.
    - unfold last_line in H2. destruct (out_termination_state o), (out_termination_state o'); try reflexivity; discriminate.
    - apply blocks_unique in H1. revert H1. generalize (out_iterations o'), (out_iterations o). intros l' l. induction 1 as [|a b l l' [HH HB] _ IH]; constructor; [|exact IH].
      destruct (header_inj a b HH) as (A1 & A2 & A3). splits_; auto.
      + apply result_inj. pose proof (f_equal (filter P_result) HB) as X.
        destruct (body_prefix false iq a) as (_ & Ea & _). destruct (body_prefix false iq b) as (_ & Eb & _). rewrite Ea, Eb in X. exact (f_equal (hd EmptyString) X).
      + pose proof (f_equal (fun l => length (filter P_errors l)) HB) as X. cbv beta in X.
        destruct (body_prefix false iq a) as (_ & _ & Ea & _). destruct (body_prefix false iq b) as (_ & _ & Eb & _). rewrite Ea, Eb in X.
        cbn [length] in X. rewrite !step_lines_length in X. lia.
      + apply solver_inj. pose proof (f_equal (filter P_solver) HB) as X. rewrite !body_solver in X. exact (f_equal (hd EmptyString) X).
  Qed.
End Results.

(** ** A concrete report *)
Section Example.
  Context {F : Type} {O : Ops F}.
  Variable x : F.
  (** All numbers print as 1.5. *)
  Definition ex_formats : Formats F := MkFormats (fun _ => "1.5") (fun _ => "1.5") (fun _ => "1.5") (fun _ => "1.5").
  Lemma ex_formats_clean : clean_formats ex_formats.
  Proof. intro y. repeat split; lit. Qed.
  Definition ex_report : NLSSolverOutputs F := MkNLSOut SATISFIED_ABSOLUTE_TOL
    [MkNLSIter 12%Z NOMINAL x (MkErrors x x) (NullSpaceOut NS_SUCCESS) None (MkDD x x) x SS_SUCCESS [MkStep x (MkErrors x x)]].
  Example C58_example_lines : lines (NLSOutputs_ToString ex_formats false true ex_report) =
    ["Iteration # 12, state = NOMINAL, lambda = 1.5";
     "  f(0): 1.5, c(0): 1.5, total: 1.5";
     "  penalty = 1.5";
     "  QP: SUCCESS";
     "  df/dalpha = 1.5, dc/dalpha = 1.5";
     "  Search result: SUCCESS";
     "  f(0): 1.5, c(0): 1.5, total: 1.5, alpha = 1.5";
     "  termination = SATISFIED_ABSOLUTE_TOL"].
  Proof. reflexivity. Qed.
End Example.
