(** C179, C180: pickles, captured output and the logger (regain/utils.py:113-185). *)
From mathcomp Require Import all_ssreflect.
From Verif Require Import M_Utils M_Files.

Set Implicit Arguments.
Unset Strict Implicit.
Unset Printing Implicit Defensive.

Lemma endsP (s e : pystr) : reflect (exists p, s = p ++ e) (endswith s e).
Proof.
apply: (iffP andP) => [[h /eqP h2]|[p ->]]; first by exists (take (size s - size e) s); rewrite -{2}h2 cat_take_drop.
by rewrite size_cat leq_addl addnK drop_size_cat.
Qed.
Lemma ending_pkl f : file_ending f [:: dot_pkl] = Ok (if endswith f dot_pkl then f else f ++ dot_pkl).
Proof. by rewrite /file_ending /ensure_filename_ending /= orbF; case: ifP => _; rewrite ?cats0. Qed.
Lemma ending_log f : file_ending f [:: dot_log; dot_txt] = Ok (if endswith f dot_log || endswith f dot_txt then f else f ++ dot_log).
Proof. by rewrite /file_ending /ensure_filename_ending /= orbF; case: ifP => _; rewrite ?cats0. Qed.

(** What was saved can be loaded back from the name with the extension: for a name that ends with ".pkl" from the same name,
    otherwise from the name followed by ".pkl". No other file changes. *)
Theorem C179_roundtrip obj dump load writable (fs fs' : files) (o : obj) f :
  (forall o b, dump o = (b, true) -> load b = Ok o) -> save_pickle dump writable fs o f = (fs', Ok tt) ->
  ((exists p, f = p ++ dot_pkl) -> load_pickle load fs' f = Ok o /\ forall g, g <> f -> fs' g = fs g) /\
  (~ (exists p, f = p ++ dot_pkl) -> load_pickle load fs' (f ++ dot_pkl) = Ok o /\ forall g, g <> f ++ dot_pkl -> fs' g = fs g).
Proof.
move=> hl; rewrite /save_pickle ending_pkl; set name := (X in writable X).
case: (writable name) => //=; case E: (dump o) => [b []] // [<-].
have rd : load_pickle load (write (write fs name [::]) name b) name = Ok o by rewrite /load_pickle /write eqxx; apply: hl E.
have ot g : g <> name -> write (write fs name [::]) name b g = fs g by rewrite /write => /eqP /negbTE ->.
split=> h.
  by move: rd ot; rewrite /name; case: endsP.
by move: rd ot; rewrite /name; case: endsP.
Qed.
Print Assumptions C179_roundtrip.
(** Saving succeeds whenever the file can be opened and the object can be pickled. *)
Theorem C179_saves obj (dump : obj -> seq nat * bool) (writable : pystr -> bool) fs o f : (forall g, writable g) -> (dump o).2 ->
  exists fs', save_pickle dump writable fs o f = (fs', Ok tt).
Proof. by move=> w d; rewrite /save_pickle ending_pkl w /=; case: (dump o) d => b c /= ->; eexists. Qed.
Print Assumptions C179_saves.
(** Refuted: "load_pickle reads what save_pickle wrote under the same name". With a name that does not end with ".pkl" it reads
    what was there before, and raises FileNotFoundError if nothing was. *)
Theorem C179_same_name_refuted obj dump (load : seq nat -> fres obj) writable (fs fs' : files) (o : obj) f r :
  ~ (exists p, f = p ++ dot_pkl) -> save_pickle dump writable fs o f = (fs', r) ->
  load_pickle load fs' f = load_pickle load fs f /\ (fs f = None -> load_pickle load fs' f = Exc FileNotFoundError).
Proof.
move=> h; rewrite /save_pickle ending_pkl; case: endsP => // _.
have ne : f <> f ++ dot_pkl by move/(congr1 size)/eqP; rewrite size_cat -[X in X == _]addn0 eqn_add2l.
have ot b : write (write fs (f ++ dot_pkl) [::]) (f ++ dot_pkl) b f = fs f by rewrite /write (negbTE (introN eqP ne)).
case: (writable _) => /=; last by case=> <- _; split=> // e; rewrite /load_pickle e.
by case: (dump o) => b c [<- _]; rewrite /load_pickle ot; split=> // ->.
Qed.
Print Assumptions C179_same_name_refuted.
(** Refuted: "a failed save keeps the old file". When the object cannot be pickled the file has already been replaced by what was
    written until then. *)
Theorem C179_failed_save_refuted obj (dump : obj -> seq nat * bool) (writable : pystr -> bool) (fs : files) (o : obj) f b : (exists p, f = p ++ dot_pkl) ->
  writable f -> dump o = (b, false) -> exists fs', save_pickle dump writable fs o f = (fs', Exc PickleError) /\ fs' f = Some b.
Proof.
move=> h w d; rewrite /save_pickle ending_pkl; case: endsP => // _; rewrite w d /=; eexists; split; first reflexivity.
by rewrite /write eqxx.
Qed.
Print Assumptions C179_failed_save_refuted.
(** A file that cannot be opened raises OSError and changes nothing. *)
Theorem C179_not_writable obj (dump : obj -> seq nat * bool) (writable : pystr -> bool) (fs : files) (o : obj) f : (forall g, ~~ writable g) ->
  save_pickle dump writable fs o f = (fs, Exc OSError).
Proof. by move=> w; rewrite /save_pickle ending_pkl w. Qed.
Print Assumptions C179_not_writable.
Example C179_case : exists (dump : nat -> seq nat * bool) load, (forall o b, dump o = (b, true) -> load b = Ok o) /\
  (exists o b, dump o = (b, true)) /\ ~ exists p, [:: 97] = p ++ dot_pkl.
Proof.
exists (fun o => ([:: o], true)), (fun b => Ok (head 0 b)); split; first by move=> o b [<-].
by split; [exists 1, [:: 1] | case=> p /(congr1 size); rewrite size_cat addnC].
Qed.

(** the programs that write only through sys.stdout *)
Fixpoint plain (p : prog) : Prop :=
  match p with
  | Print _ | RaiseP _ => True
  | PrintTo _ _ | SetStdout _ => False
  | Seq p q | TryExcept p q => plain p /\ plain q
  | Suppress p => plain p
  end.
Lemma emit0 st s h : stdout st = 0 -> written (emit st (stdout st) s) h = written st h.
Proof. by move=> -> /=; rewrite andbF. Qed.
Lemma plain_stdout p st : plain p -> stdout (run p st).1 = stdout st.
Proof.
elim: p st => //= [p IHp q IHq|p IHp q IHq|p IHp] st; last by case: (run p _).
  by case=> hp hq; move: (IHp st hp); case: (run p st) => st1 [v|e] //= <-; apply: IHq.
by case=> hp hq; move: (IHp st hp); case: (run p st) => st1 [v|e] //= <-; apply: IHq.
Qed.
Lemma plain_quiet p st : plain p -> stdout st = 0 -> forall h, written (run p st).1 h = written st h.
Proof.
elim: p st => //= [s st _ e h|p IHp q IHq st [hp hq] e h|p IHp q IHq st [hp hq] e h|p IHp st hp e h].
- exact: (emit0 s h e).
- move: (IHp st hp e h) (plain_stdout st hp); case: (run p st) => st1 [v|x] //= <- e1; apply: IHq => //; by rewrite e1.
- move: (IHp st hp e h) (plain_stdout st hp); case: (run p st) => st1 [v|x] //= <- e1; apply: IHq => //; by rewrite e1.
by move: (IHp (Out 0 (written st)) hp erefl h); case: (run p _).
Qed.
(** Nothing that the body writes through sys.stdout appears anywhere, for all bodies, also if they raise, handle exceptions or
    suppress again. *)
Theorem C180_suppressed p st : plain p -> forall h, written (run (Suppress p) st).1 h = written st h.
Proof. by move=> hp h /=; move: (plain_quiet hp (erefl : stdout (Out 0 (written st)) = 0) h); case: (run p _). Qed.
Print Assumptions C180_suppressed.
(** Afterwards sys.stdout is what it was, whatever the body does, also if it raises or replaces sys.stdout, and an exception
    passes through. *)
Theorem C180_restored p st : stdout (run (Suppress p) st).1 = stdout st /\ (run (Suppress p) st).2 = (run p (Out 0 (written st))).2.
Proof. by move=> /=; case: (run p _). Qed.
Print Assumptions C180_restored.
(** What follows is written as if the body had not been there. *)
Theorem C180_after p s st : plain p -> (run p (Out 0 (written st))).2 = Ok tt ->
  let st' := (run (Seq (Suppress p) (Print s)) st).1 in
  forall h, written st' h = if (h == stdout st) && (h != 0) then rcons (written st h) s else written st h.
Proof.
move=> hp /= ok h; move: (plain_quiet hp (erefl : stdout (Out 0 (written st)) = 0) h) ok.
case: (run p _) => st1 [v|e] //= <- _; case: eqP => //= ->; by [].
Qed.
Print Assumptions C180_after.
(** Refuted: "suppress function output" for functions that kept the file before, as logging handlers do. *)
Theorem C180_kept_file_refuted s st h : h != 0 -> written (run (Suppress (PrintTo h s)) st).1 h = rcons (written st h) s.
Proof. by move=> h0 /=; rewrite eqxx h0. Qed.
Print Assumptions C180_kept_file_refuted.
Example C180_case : let p := Seq (Print [:: 1]) (TryExcept (Seq (Suppress (Print [:: 2])) (RaiseP OSError)) (Print [:: 3])) in
  plain p /\ (run p (Out 0 (fun _ => [::]))).2 = Ok tt.
Proof. by []. Qed.

(** Without filters, and when the file can be opened: exactly a file handler and a stream handler, however many there were and however
    often it is called; the handlers that were there are closed; the file is empty and its name is returned. *)
Theorem C181_handlers (openable : pystr -> bool) st f verbose : filters st = [::] -> (forall g, openable g) ->
  exists st' name, [/\ init_logger openable st f verbose = (st', Ok name), [seq kind h | h <- handlers st'] = [:: ToFile name; ToStream],
    level st' = INFO /\ filters st' = [::], closed st' = closed st ++ handlers st & logfiles st' name = Some [::]].
Proof.
move=> fl op; rewrite /init_logger ending_log fl /= op /=; do 2 eexists; split; first reflexivity; rewrite //=.
by rewrite /write eqxx.
Qed.
Print Assumptions C181_handlers.
(** The name ends with ".log" or ".txt": as given if it already does, otherwise followed by ".log". *)
Theorem C181_name openable st f verbose st' name : init_logger openable st f verbose = (st', Ok name) ->
  ((exists p, f = p ++ dot_log) \/ (exists p, f = p ++ dot_txt) -> name = f) /\
  (~ (exists p, f = p ++ dot_log) -> ~ (exists p, f = p ++ dot_txt) -> name = f ++ dot_log).
Proof.
rewrite /init_logger ending_log; case: (drop_filters _) => fl [] //=; case: (openable _) => //= -[_ <-].
by case: (endsP f dot_log) (endsP f dot_txt) => [h|h] [k|k] /=; split=> // [[]].
Qed.
Print Assumptions C181_name.
(** Which messages go where: from INFO on to the file, and to the stream as well; without verbose only from ERROR on. Below INFO nowhere. *)
Theorem C181_messages openable st f verbose st' name l : init_logger openable st f verbose = (st', Ok name) ->
  emitters st' l = if l < 20 then [::] else if verbose || (40 <= l) then [:: ToFile name; ToStream] else [:: ToFile name].
Proof.
rewrite /init_logger; case: file_ending => // lf; case: (drop_filters _) => fl [] //=; case: (openable _) => //= -[<- <-].
by rewrite /emitters /= /INFO leqNgt; case: ltnP => //= h; case: verbose => /=; rewrite ?h //; case: ifP.
Qed.
Print Assumptions C181_messages.
(** Called twice it is as if called once: no message is written twice. *)
Theorem C181_twice openable st f verbose g verbose' st1 n1 st2 n2 : init_logger openable st f verbose = (st1, Ok n1) ->
  init_logger openable st1 g verbose' = (st2, Ok n2) ->
  exists st3, init_logger openable st g verbose' = (st3, Ok n2) /\ handlers st3 = handlers st2 /\ level st3 = level st2.
Proof.
rewrite /init_logger; case: (file_ending f _) => // lf; case E: (drop_filters (filters st)) => [fl []] //=; case: (openable lf) => //= -[<- _] /=.
case: (file_ending g _) => // lg; case: (drop_filters fl) => fl2 [] //=; case: (openable lg) => //= -[<- <-]; by eexists.
Qed.
Print Assumptions C181_twice.
(** Refuted: "initialise logger" when the root logger has a filter of the logging package, which has no method flush: AttributeError, and
    the root logger is left without handlers. *)
Theorem C181_filter_refuted openable st f verbose : false \in filters st ->
  exists st', init_logger openable st f verbose = (st', Exc AttributeError) /\ handlers st' = [::].
Proof.
move=> h; have e : (drop_filters (filters st)).2 = false by elim: (filters st) h => //= -[] l IH //=; rewrite inE.
by rewrite /init_logger ending_log; case: (drop_filters _) e => fl b /= ->; eexists.
Qed.
Print Assumptions C181_filter_refuted.
Example C181_case : exists st', init_logger (fun _ => true) (Logger [:: Handler ToStream 0] [::] 30 [::] (fun _ => None)) [:: 97] true
  = (st', Ok [:: 97; 46; 108; 111; 103]).
Proof. by eexists. Qed.
