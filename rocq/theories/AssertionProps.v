(** C87: a failed assertion throws assert::default_error, with a message that says what failed and where. *)
From Coq Require Import String Ascii List Bool Arith ZArith Lia.
From Verif Require Import Tracing TracingProps Assertion.
Import ListNotations.
Local Open Scope string_scope.
Local Open Scope list_scope.
Local Open Scope nat_scope.

(** ** Specification *)

Definition no_brace (s : string) : Prop := ~ has_char "{"%char s /\ ~ has_char "}"%char s.
(** Newlines and NULs. *)
Definition one_line (s : string) : Prop := ~ has_char (ascii_of_nat 10) s.
Definition no_nul (s : string) : Prop := ~ has_char zero s.

(** Alternately a piece of text and an argument. *)
Fixpoint fill (pieces args : list string) : string :=
  match pieces with
  | [] => EmptyString
  | p :: ps => (p ++ match ps with
                     | [] => EmptyString
                     | _ :: _ => match args with a :: args' => a ++ fill ps args' | [] => EmptyString end
                     end)%string
  end.

(** The condition as the user of the macro reads it: F_ASSERT(c) checks c, F_ASSERT_LE(a, b) checks (a) <= (b), and so on. *)
Definition condition_text (m : macro) : string :=
  match m with
  | Plain c => c
  | Binary OpEQ a b => "(" ++ a ++ ") == (" ++ b ++ ")"
  | Binary OpNE a b => "(" ++ a ++ ") != (" ++ b ++ ")"
  | Binary OpLT a b => "(" ++ a ++ ") < (" ++ b ++ ")"
  | Binary OpGT a b => "(" ++ a ++ ") > (" ++ b ++ ")"
  | Binary OpLE a b => "(" ++ a ++ ") <= (" ++ b ++ ")"
  | Binary OpGE a b => "(" ++ a ++ ") >= (" ++ b ++ ")"
  end%string.

(** The message of a failed assertion; [a], [b]: the values of the operands, [reason]: the text after "Reason:", if any. *)
Definition message (m : macro) (file : string) (line : Z) (a b : string) (reason : option string) : string :=
  ("Assertion failed: " ++ condition_text m ++ nl ++ "File: " ++ file ++ nl ++ "Line: " ++ dec line ++
   match m with
   | Plain _ => ""
   | Binary _ a_str b_str => nl ++ "Operands are: `" ++ a_str ++ "` = " ++ a ++ ", `" ++ b_str ++ "` = " ++ b
   end ++
   match reason with None => "" | Some t => nl ++ "Reason: " ++ t end)%string.

(** ** Proofs *)

Lemma condition_str_text : forall m, condition_str m = condition_text m.
Proof. intros [c|[] a b]; reflexivity. Qed.

Lemma append_nil : forall s, (s ++ "")%string = s.
Proof. induction s as [|c s IH]; [reflexivity|]. cbn [append]. rewrite IH. reflexivity. Qed.

Lemma has_char_app : forall c a b, has_char c (a ++ b)%string <-> has_char c a \/ has_char c b.
Proof. intros c. induction a as [|x a IH]; intro b; cbn [append has_char]; [tauto|]. rewrite IH. tauto. Qed.

Lemma fmt_plain : forall p r args, no_brace p -> fmt_format (p ++ r) args = option_map (append p) (fmt_format r args).
Proof.
  induction p as [|c p IH]; intros r args [N1 N2].
  - cbn [append]. destruct (fmt_format r args); reflexivity.
  - cbn [has_char] in N1, N2. cbn [append fmt_format].
    destruct (Ascii.eqb_spec c "{"%char) as [E|_]; [tauto|]. destruct (Ascii.eqb_spec c "}"%char) as [E|_]; [tauto|].
    rewrite IH by (split; tauto). destruct (fmt_format r args); reflexivity.
Qed.

(** C87: the reason is composed from its text and the arguments: "{}" number i is replaced by argument i, unchanged (braces in the
    arguments mean nothing); with too few arguments fmt throws. *)
Theorem C87_format_string : forall pieces args, Forall no_brace pieces ->
  (length pieces <= S (length args) -> fmt_format (String.concat "{}" pieces) args = Some (fill pieces args)) /\
  (S (length args) < length pieces -> fmt_format (String.concat "{}" pieces) args = None).
Proof.
  induction pieces as [|p ps IH]; intros args FA; cbn [length]; [split; [reflexivity|lia]|].
  inversion FA as [|? ? NP FP]; subst. destruct ps as [|p' ps].
  - split; [|cbn [length]; lia]. intros _. cbn [String.concat fill].
    rewrite <- (append_nil p) at 1. rewrite (fmt_plain p "" args NP). reflexivity.
  - assert (C : fmt_format (String.concat "{}" (p :: p' :: ps)) args =
                option_map (append p) (match args with [] => None | a :: args' =>
                  option_map (append a) (fmt_format (String.concat "{}" (p' :: ps)) args') end)).
    { change (String.concat "{}" (p :: p' :: ps)) with (p ++ "{}" ++ String.concat "{}" (p' :: ps))%string.
      rewrite fmt_plain by exact NP. reflexivity. }
    rewrite C. destruct args as [|a args]; cbn [length].
    + split; [lia|reflexivity].
    + destruct (IH args FP) as [A B]. cbn [length] in A, B. split; intro L.
      * rewrite A by lia. reflexivity.
      * rewrite B by lia. reflexivity.
Qed.

Lemma prefix_text : forall c f l,
  fmt_format message_prefix [c; f; l] = Some ("Assertion failed: " ++ c ++ nl ++ "File: " ++ f ++ nl ++ "Line: " ++ l)%string.
Proof.
  intros c f l. cbn. rewrite append_nil. reflexivity.
Qed.

Lemma operands_text : forall err a_str a b_str b,
  format_to err (nl ++ "Operands are: `{}` = {}, `{}` = {}") [a_str; a; b_str; b] =
  Some (err ++ nl ++ "Operands are: `" ++ a_str ++ "` = " ++ a ++ ", `" ++ b_str ++ "` = " ++ b)%string.
Proof. intros. unfold format_to. cbn. rewrite append_nil. reflexivity. Qed.

Lemma reason_text : forall err reason args,
  append_reason err reason args =
    match reason with
    | EmptyString => Some err
    | _ => option_map (fun t => err ++ nl ++ "Reason: " ++ t)%string (fmt_format reason args)
    end.
Proof.
  intros err [|c r] args; [reflexivity|]. unfold append_reason, format_to.
  destruct (fmt_format (String c r) args) as [t|]; [|reflexivity]. cbn [option_map].
  rewrite !append_assoc. reflexivity.
Qed.

(** C87: what happens at an assertion. If the condition holds, nothing. Otherwise assert::default_error is thrown with the message
    above, whatever characters the condition, the file name and the values contain; unless the reason has more placeholders than
    arguments, then fmt::format_error is thrown instead. *)
Theorem C87_assertion : forall m file line a b pieces args, Forall no_brace pieces ->
  let reason := String.concat "{}" pieces in
  F_ASSERT true m file line a b reason args = None /\
  (length pieces <= S (length args) ->
     F_ASSERT false m file line a b reason args =
       Some (DefaultError (message m file line a b (if (reason =? "")%string then None else Some (fill pieces args))))) /\
  (S (length args) < length pieces -> F_ASSERT false m file line a b reason args = Some FormatError).
Proof.
  intros m file line a b pieces args FA reason. destruct (C87_format_string pieces args FA) as [A B]. fold reason in A, B.
  split; [reflexivity|].
  assert (X : F_ASSERT false m file line a b reason args =
    Some match (match reason with EmptyString => Some None | _ => option_map Some (fmt_format reason args) end) with
         | Some r => DefaultError (message m file line a b r)
         | None => FormatError
         end).
  { unfold F_ASSERT, message. rewrite <- condition_str_text. f_equal. destruct m as [c|o x y].
    - unfold format_assert. rewrite prefix_text, reason_text. cbn [condition_str].
      destruct reason as [|k r]; [rewrite !append_nil; reflexivity|].
      destruct (fmt_format (String k r) args); [|reflexivity]. cbn [option_map].
      f_equal. repeat (rewrite ?append_assoc; cbn [append]). reflexivity.
    - unfold format_assert_binary. rewrite prefix_text, operands_text, reason_text.
      destruct reason as [|k r].
      + f_equal. repeat (rewrite ?append_assoc; cbn [append]). rewrite ?append_nil. reflexivity.
      + destruct (fmt_format (String k r) args); [|reflexivity]. cbn [option_map]. f_equal.
        repeat (rewrite ?append_assoc; cbn [append]). reflexivity. }
  rewrite X. split; intro L.
  - destruct reason as [|k r]; [reflexivity|]. rewrite A by exact L. reflexivity.
  - destruct reason as [|k r] eqn:E; [specialize (B L); discriminate|]. rewrite B by exact L. reflexivity.
Qed.

(** C87: what() shows the whole message if nothing in it contains a NUL. *)
Theorem C87_what : forall msg, no_nul msg -> what (DefaultError msg) = msg.
Proof.
  intros msg. cbn [what]. induction msg as [|c s IH]; intro N; [reflexivity|]. cbn [c_str].
  cbn [no_nul has_char] in N. unfold no_nul in N. cbn [has_char] in N.
  destruct (Ascii.eqb_spec c zero) as [E|_]; [tauto|]. rewrite IH by (unfold no_nul; tauto). reflexivity.
Qed.

Lemma tail_split : forall line line' x y,
  x = "" \/ (exists t, x = String (ascii_of_nat 10) t) -> y = "" \/ (exists t, y = String (ascii_of_nat 10) t) ->
  (dec line ++ x)%string = (dec line' ++ y)%string -> line = line'.
Proof.
  intros line line' x y X Y E. apply dec_inj.
  assert (N : forall z, ~ has_char (ascii_of_nat 10) (dec z)) by (intro z; apply dec_chars; cbn; lia).
  destruct X as [->|[t ->]], Y as [->|[t' ->]].
  - rewrite !append_nil in E. exact E.
  - rewrite append_nil in E. exfalso. apply (N line). rewrite E. apply has_char_app. right. left. reflexivity.
  - rewrite append_nil in E. exfalso. apply (N line'). rewrite <- E. apply has_char_app. right. left. reflexivity.
  - apply (split_at (ascii_of_nat 10)) in E; [|apply N|apply N]. exact (proj1 E).
Qed.

(** C87: the message tells which assertion failed: condition, file and line can be read off it. *)
Theorem C87_message_identifies : forall m m' file file' line line' a b a' b' r r',
  one_line (condition_text m) -> one_line (condition_text m') -> one_line file -> one_line file' ->
  message m file line a b r = message m' file' line' a' b' r' ->
  condition_text m = condition_text m' /\ file = file' /\ line = line'.
Proof.
  intros m m' file file' line line' a b a' b' r r' C C' D D' E. unfold message, nl in E. cbn [append] in E.
  injection E as E. apply (split_at (ascii_of_nat 10)) in E; [|exact C|exact C']. destruct E as [EC E].
  injection E as E. apply (split_at (ascii_of_nat 10)) in E; [|exact D|exact D']. destruct E as [EF E].
  injection E as E. split; [exact EC|]. split; [exact EF|].
  eapply tail_split; [| |exact E]; [destruct m, r|destruct m', r']; cbn [append]; eauto.
Qed.

(** ** The assertions of the library *)

(** Split at "{}". *)
Fixpoint split_braces (s : string) : list string :=
  match s with
  | EmptyString => [EmptyString]
  | String c r =>
    match r with
    | String c' r' =>
      if (Ascii.eqb c "{" && Ascii.eqb c' "}")%bool then EmptyString :: split_braces r'
      else match split_braces r with p :: ps => String c p :: ps | [] => [String c EmptyString] end
    | EmptyString => [String c EmptyString]
    end
  end.
Fixpoint has_charb (c : ascii) (s : string) : bool :=
  match s with EmptyString => false | String a s' => Ascii.eqb a c || has_charb c s' end.
Lemma has_charb_spec : forall c s, has_charb c s = false -> ~ has_char c s.
Proof.
  intros c. induction s as [|a s IH]; cbn [has_charb has_char]; [tauto|]. intro H. apply orb_false_iff in H. destruct H as [H1 H2].
  apply Ascii.eqb_neq in H1. intros [E|E]; [exact (H1 E)|exact (IH H2 E)].
Qed.
Definition site_ok (s : site) : bool :=
  let ps := split_braces (s_reason s) in
  (String.concat "{}" ps =? s_reason s)%string && Nat.eqb (length ps) (S (s_nargs s)) &&
  forallb (fun p => negb (has_charb "{" p) && negb (has_charb "}" p)) ps &&
  negb (has_charb (ascii_of_nat 10) (condition_text (s_macro s))) && negb (has_charb (ascii_of_nat 10) (s_file s)).
Lemma all_sites_ok : forallb site_ok library_sites = true.
Proof. vm_compute. reflexivity. Qed.

(** C87: every failing assertion of the library throws assert::default_error - never fmt::format_error - with the message above,
    whatever the values of the operands and arguments and the directory the library was built in. *)
Theorem C87_library_throws_default_error : forall s, In s library_sites ->
  forall dir a b args, length args = s_nargs s ->
  exists pieces, Forall no_brace pieces /\ s_reason s = String.concat "{}" pieces /\ length pieces = S (s_nargs s) /\
    let file := (dir ++ s_file s)%string in
    F_ASSERT true (s_macro s) file (s_line s) a b (s_reason s) args = None /\
    F_ASSERT false (s_macro s) file (s_line s) a b (s_reason s) args =
      Some (DefaultError (message (s_macro s) file (s_line s) a b
                            (if (s_reason s =? "")%string then None else Some (fill pieces args)))).
Proof.
  intros s Hin dir a b args L. pose proof all_sites_ok as K. rewrite forallb_forall in K. specialize (K s Hin).
  unfold site_ok in K. repeat (apply andb_true_iff in K; destruct K as [K ?]).
  apply String.eqb_eq in K. apply Nat.eqb_eq in H2.
  assert (FA : Forall no_brace (split_braces (s_reason s))).
  { apply Forall_forall. intros p Hp. rewrite forallb_forall in H1. specialize (H1 p Hp). apply andb_true_iff in H1. destruct H1 as [X Y].
    apply negb_true_iff in X, Y. split; apply has_charb_spec; assumption. }
  exists (split_braces (s_reason s)). split; [exact FA|]. split; [symmetry; exact K|]. split; [exact H2|].
  destruct (C87_assertion (s_macro s) (dir ++ s_file s) (s_line s) a b _ args FA) as (A & B & _).
  rewrite K in A, B. split; [exact A|]. apply B. rewrite H2, L. lia.
Qed.

(** C87: two different assertions of the library never produce the same message. *)
Theorem C87_messages_distinct : forall s s', In s library_sites -> In s' library_sites ->
  forall dir a b a' b' r r', one_line dir ->
  message (s_macro s) (dir ++ s_file s) (s_line s) a b r = message (s_macro s') (dir ++ s_file s') (s_line s') a' b' r' -> s = s'.
Proof.
  intros s s' H H' dir a b a' b' r r' D E. pose proof all_sites_ok as K. rewrite forallb_forall in K.
  assert (ONE : forall t, In t library_sites -> one_line (condition_text (s_macro t)) /\ one_line (dir ++ s_file t)).
  { intros t Ht. specialize (K t Ht). unfold site_ok in K. apply andb_true_iff in K. destruct K as [K K2]. apply andb_true_iff in K.
    destruct K as [_ K1]. apply negb_true_iff in K1, K2. split; [apply has_charb_spec; exact K1|].
    intro X. apply has_char_app in X. destruct X as [X|X]; [exact (D X)|exact (has_charb_spec _ _ K2 X)]. }
  destruct (C87_message_identifies _ _ _ _ _ _ _ _ _ _ _ _ (proj1 (ONE s H)) (proj1 (ONE s' H')) (proj2 (ONE s H)) (proj2 (ONE s' H')) E)
    as (_ & EF & EL).
  assert (EF' : s_file s = s_file s').
  { clear - EF. induction dir as [|c dir IH]; [exact EF|]. cbn [append] in EF. injection EF as EF. exact (IH EF). }
  assert (ND : NoDup (map (fun t => (s_file t, s_line t)) library_sites)).
  { clear. set (eqd := fun p q : string * Z => ((fst p =? fst q)%string && (snd p =? snd q)%Z)%bool).
    assert (X : forall l, (fix nd l := match l with [] => true | p :: l' => negb (existsb (eqd p) l') && nd l' end)%bool l = true -> NoDup l).
    { induction l as [|p l IH]; intro T; [constructor|]. apply andb_true_iff in T. destruct T as [T1 T2]. constructor; [|exact (IH T2)].
      intro I. apply negb_true_iff in T1. assert (existsb (eqd p) l = true); [|congruence]. apply existsb_exists. exists p. split; [exact I|].
      unfold eqd. rewrite String.eqb_refl, Z.eqb_refl. reflexivity. }
    apply X. vm_compute. reflexivity. }
  assert (Q : forall (A B : Type) (f : A -> B) l x y, NoDup (map f l) -> In x l -> In y l -> f x = f y -> x = y).
  { clear. intros A B f. induction l as [|z l IH]; intros x y N Hx Hy E; [destruct Hx|]. cbn [map] in N. inversion N as [|? ? N1 N2]; subst.
    destruct Hx as [->|Hx], Hy as [->|Hy]; try reflexivity.
    - exfalso. apply N1. rewrite E. apply in_map. exact Hy.
    - exfalso. apply N1. rewrite <- E. apply in_map. exact Hx.
    - apply (IH x y N2 Hx Hy E). }
  apply (Q _ _ (fun t => (s_file t, s_line t)) library_sites s s' ND H H'). cbn. congruence.
Qed.

(** ** Cases *)

(** The slack check of qp.cc:285 with s = (1, -2). *)
Example C87_case :
  F_ASSERT false (Plain "!include_inequalities || (s.array() > 0.0).all()") "source/qp.cc" 285 "" ""
    "Some slack variables s <= 0: [{}]" ["1, -2"] =
  Some (DefaultError ("Assertion failed: !include_inequalities || (s.array() > 0.0).all()" ++ nl ++ "File: source/qp.cc" ++ nl ++
                      "Line: 285" ++ nl ++ "Reason: Some slack variables s <= 0: [1, -2]")%string) /\
  F_ASSERT false (Binary OpGT "params.sigma" "0") "/x/source/qp.cc" 78 "nan" "0" "" [] =
  Some (DefaultError ("Assertion failed: (params.sigma) > (0)" ++ nl ++ "File: /x/source/qp.cc" ++ nl ++ "Line: 78" ++ nl ++
                      "Operands are: `params.sigma` = nan, `0` = 0")%string) /\
  F_ASSERT false (Plain "x") "f" 1 "" "" "{} and {}" ["{}"] = Some FormatError /\
  length library_sites = 101.
Proof. repeat split; vm_compute; reflexivity. Qed.
