(** C75: the text get_trace_json returns is a JSON document (RFC 8259) that holds exactly the retained events. *)
From Coq Require Import String Ascii List Bool Arith ZArith Lia Decimal DecimalString DecimalZ.
From Verif Require Import JsonText Tracing TracingProps.
Import ListNotations.
Local Open Scope string_scope.
Local Open Scope list_scope.
Local Open Scope nat_scope.

(** ** Integers are JSON numbers *)
Lemma uint_digits : forall d, all_chars is_digit (NilEmpty.string_of_uint d) = true.
Proof. induction d; cbn [NilEmpty.string_of_uint all_chars]; rewrite ?IHd; reflexivity. Qed.

(** An unsigned decimal without a leading zero is 0 or begins with another digit. *)
Definition normal (d : Decimal.uint) : Prop := match d with D0 Nil => True | D0 _ => False | _ => True end.
Lemma int_text : forall d, normal d ->
  NilZero.string_of_uint d = "0" \/
  exists c r, NilZero.string_of_uint d = String c r /\ is_digit c = true /\ c <> "0"%char /\ all_chars is_digit r = true.
Proof.
  intros d N. destruct d as [|d|d|d|d|d|d|d|d|d|d]; cbn [NilZero.string_of_uint NilEmpty.string_of_uint]; [left; reflexivity| | | | | | | | | |];
    try (right; eexists _, _; split; [reflexivity|]; repeat split; [discriminate|apply uint_digits]).
  destruct d; cbn in N; try contradiction. left. reflexivity.
Qed.
Lemma normal_unorm : forall d, normal (unorm d).
Proof. induction d; cbn; auto. Qed.
Lemma nzhead_normal : forall d, match nzhead d with D0 _ => False | _ => True end.
Proof. induction d; cbn [nzhead]; auto. Qed.
Lemma to_int_norm : forall z, norm (Z.to_int z) = Z.to_int z.
Proof. intro z. rewrite <- (DecimalZ.to_of (Z.to_int z)), DecimalZ.of_to. reflexivity. Qed.
Lemma dec_number : forall z, number (dec z).
Proof.
  intro z. unfold dec. pose proof (to_int_norm z) as N. destruct (Z.to_int z) as [u|u]; cbn [norm] in N.
  - exists "", (NilZero.string_of_uint u), "", "". cbn [NilZero.string_of_int append]. rewrite !append_nil_s.
    repeat split; auto. apply int_text. injection N as <-. apply normal_unorm.
  - exists "-", (NilZero.string_of_uint u), "", "". cbn [NilZero.string_of_int append]. rewrite !append_nil_s.
    repeat split; auto. apply int_text. pose proof (nzhead_normal u) as K. destruct (nzhead u) eqn:E; try discriminate N; injection N as <-; first [contradiction K|exact I].
Qed.

(** ** What the document should be *)
Definition event_tree (e : trace_event) : tree :=
  TObj [("name", TStr (ev_name e)); ("cat", TStr ""); ("ph", TStr "X"); ("ts", TNum (dec (ev_ts e)));
        ("pid", TNum (dec (ev_pid e))); ("tid", TNum (dec (ev_tid e))); ("dur", TNum (dec (Z.quot (ev_dur_ns e) 1000)))].
Definition trace_tree (events : list trace_event) : tree :=
  TObj [("traceEvents", TArr (map event_tree events)); ("displayTimeUnit", TStr "ns")].

Definition plain_name (e : trace_event) : Prop := all_chars plain (ev_name e) = true.

Lemma plain_chars : forall s, all_chars plain s = true -> chars s s.
Proof.
  induction s as [|c s IH]; intro H; cbn [all_chars] in H; [constructor|]. apply andb_true_iff in H. destruct H as [A B].
  apply c_plain; auto.
Qed.

Ltac flat := repeat (progress (rewrite ?append_assoc_s; cbn [append])).

Lemma event_value : forall e, plain_name e -> value (event_tree e) (format_event e).
Proof.
  intros [n ts pid tid dur] P. unfold plain_name in P. unfold event_tree, format_event. cbn [ev_name ev_ts ev_pid ev_tid ev_dur_ns] in *.
  set (d := Z.quot dur 1000). set (str := fun s => (one dquote ++ s ++ one dquote)%string).
  set (b := (" " ++ str "name" ++ "" ++ ":" ++ " " ++ str n ++ "" ++ ","
       ++ " " ++ str "cat" ++ "" ++ ":" ++ " " ++ str "" ++ "" ++ ","
       ++ " " ++ str "ph" ++ "" ++ ":" ++ " " ++ str "X" ++ "" ++ ","
       ++ " " ++ str "ts" ++ "" ++ ":" ++ " " ++ dec ts ++ "" ++ ","
       ++ " " ++ str "pid" ++ "" ++ ":" ++ " " ++ dec pid ++ "" ++ ","
       ++ " " ++ str "tid" ++ "" ++ ":" ++ " " ++ dec tid ++ "" ++ ","
       ++ " " ++ str "dur" ++ "" ++ ":" ++ " " ++ dec d ++ " ")%string).
  assert (E : ("{ " ++ quoted "name" ++ ": " ++ quoted n ++ ", " ++ quoted "cat" ++ ": " ++ quoted "" ++ ", "
     ++ quoted "ph" ++ ": " ++ quoted "X" ++ ", " ++ quoted "ts" ++ ": " ++ dec ts ++ ", "
     ++ quoted "pid" ++ ": " ++ dec pid ++ ", " ++ quoted "tid" ++ ": " ++ dec tid ++ ", "
     ++ quoted "dur" ++ ": " ++ dec d ++ " }")%string = ("{" ++ b ++ "}")%string).
  { unfold b, str, quoted, dq, one, dquote. flat. reflexivity. }
  rewrite E. apply v_obj. unfold b, str.
  repeat (apply m_more; [reflexivity|reflexivity|reflexivity|reflexivity|apply plain_chars; reflexivity|
     first [apply v_str; apply plain_chars; first [exact P|reflexivity]|apply v_num; apply dec_number]|]).
  apply m_one; [reflexivity|reflexivity|reflexivity|reflexivity|apply plain_chars; reflexivity|apply v_num; apply dec_number].
Qed.

Lemma events_elements : forall events, events <> [] -> (forall e, In e events -> plain_name e) ->
  forall w, ws w -> forall w', ws w' ->
  elements (map event_tree events) (w ++ join ("," ++ nl ++ "    ") (map format_event events) ++ w')%string.
Proof.
  induction events as [|e events IH]; intros NE P w W w' W'; [congruence|].
  destruct events as [|e' events].
  - cbn [map join]. apply e_one; [exact W|exact W'|]. apply event_value. apply P. left. reflexivity.
  - change (map event_tree (e :: e' :: events)) with (event_tree e :: map event_tree (e' :: events)).
    change (join ("," ++ nl ++ "    ") (map format_event (e :: e' :: events)))
      with (format_event e ++ ("," ++ nl ++ "    ") ++ join ("," ++ nl ++ "    ") (map format_event (e' :: events)))%string.
    set (j := join ("," ++ nl ++ "    ") (map format_event (e' :: events))) in *.
    assert (E : (w ++ (format_event e ++ ("," ++ nl ++ "    ") ++ j) ++ w')%string
              = (w ++ format_event e ++ "" ++ "," ++ ((nl ++ "    ") ++ j ++ w'))%string) by (flat; reflexivity).
    rewrite E. apply e_more; [exact W|reflexivity|apply event_value; apply P; left; reflexivity|].
    apply IH; [discriminate|intros x X; apply P; right; exact X|reflexivity|exact W'].
Qed.

(** C75: whatever scopes have ended before, get_trace_json is a JSON document holding the last 100000 events in order, each
    with its name, start, process, thread and duration in microseconds, provided that no name contains a control character, a
    double quote or a backslash. No other value has this text. *)
Theorem C75_trace_is_json : forall l : list trace_event, (forall e, In e l -> plain_name e) ->
  document (trace_tree (last_n limit l)) (get_trace_json (fold_left submit_event l [])) /\
  forall t, document t (get_trace_json (fold_left submit_event l [])) -> t = trace_tree (last_n limit l).
Proof.
  intros l P. rewrite C47_most_recent_events.
  assert (P' : forall e, In e (last_n limit l) -> plain_name e).
  { intros e H. apply P. unfold last_n in H. rewrite <- (firstn_skipn (length l - limit) l). apply in_or_app. right. exact H. }
  assert (D : document (trace_tree (last_n limit l)) (get_trace_json (last_n limit l))).
  { generalize dependent (last_n limit l). clear. intros events P.
    set (j := join ("," ++ nl ++ "    ") (map format_event events)).
    assert (V : value (TArr (map event_tree events)) ("[" ++ ((nl ++ "    ") ++ j ++ (nl ++ "  ")) ++ "]")%string).
    { unfold j. destruct events as [|e events].
      - apply v_arr0. reflexivity.
      - apply v_arr. apply events_elements; [discriminate|exact P|reflexivity|reflexivity]. }
    exists nl, ("{" ++ ((nl ++ "  ") ++ (one dquote ++ "traceEvents" ++ one dquote) ++ "" ++ ":" ++ " " ++
        ("[" ++ ((nl ++ "    ") ++ j ++ (nl ++ "  ")) ++ "]") ++ "" ++ "," ++
        (nl ++ "  ") ++ (one dquote ++ "displayTimeUnit" ++ one dquote) ++ "" ++ ":" ++ " " ++ (one dquote ++ "ns" ++ one dquote) ++ nl) ++ "}")%string, nl.
    split; [reflexivity|]. split; [reflexivity|]. split.
    - apply v_obj. apply m_more; [reflexivity|reflexivity|reflexivity|reflexivity|apply plain_chars; reflexivity|exact V|].
      apply m_one; [reflexivity|reflexivity|reflexivity|reflexivity|apply plain_chars; reflexivity|]. apply v_str. apply plain_chars. reflexivity.
    - unfold get_trace_json. fold j. unfold quoted, dq, nl, one, dquote. flat. reflexivity. }
  split; [exact D|]. intros t T. exact (json_unambiguous _ _ _ T D).
Qed.

(** C75: names are not escaped. A name with a double quote can make the text no JSON at all, or make one event look like two. *)
Theorem C75_names_not_escaped :
  (forall t, ~ document t (get_trace_json [MkEvent ("a" ++ dq ++ "b") 1 2 3 4000])) /\
  exists e e1 e2, get_trace_json [e] = get_trace_json [e1; e2].
Proof.
  split.
  - intros t H. apply parse_complete in H.
    assert (N : parse (get_trace_json [MkEvent ("a" ++ dq ++ "b") 1 2 3 4000]) = None) by (vm_compute; reflexivity).
    rewrite N in H. discriminate H.
  - exists (MkEvent ("a" ++ dq ++ ", " ++ dq ++ "cat" ++ dq ++ ": " ++ dq ++ dq ++ ", " ++ dq ++ "ph" ++ dq ++ ": " ++ dq ++ "X" ++ dq ++ ", " ++ dq ++ "ts" ++ dq ++ ": 1, "
        ++ dq ++ "pid" ++ dq ++ ": 2, " ++ dq ++ "tid" ++ dq ++ ": 3, " ++ dq ++ "dur" ++ dq ++ ": 4 }," ++ nl ++ "    { " ++ dq ++ "name" ++ dq ++ ": " ++ dq ++ "b") 5 6 7 8000).
    exists (MkEvent "a" 1 2 3 4000), (MkEvent "b" 5 6 7 8000). vm_compute. reflexivity.
Qed.

(** The hypotheses are met, e.g. by the names the library uses. *)
Example C75_case : forall ts dur, (forall e, In e [MkEvent "ConstrainedNonlinearLeastSquares::Solve" ts 1 2 dur; MkEvent "UpdateHessian" ts 1 2 dur] -> plain_name e).
Proof. intros ts dur e [<-|[<-|[]]]; reflexivity. Qed.
