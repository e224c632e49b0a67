(** The goroutines of the command jp: the transformers that use iterators
    (split and queries) as processes of PipelineModel.v, and the pipeline that
    main.go:192-247 builds from the arguments. *)
From Coq Require Import List ZArith NArith Bool.
From Verif Require Import Base Tokens ScannerModel ProgModel JsonDecModel JpvDecModel CsvModel CursorModel IterModel SplitModel P_Split
  PathModel PathTop StreamModel PipelineModel PipelineStages MainModel CliModel.
Import ListNotations.

(** A token that is not in the input, see [await]. *)
Definition probe : token := TElision.

Section Values.
Context {R : Type}.
Variable grow : Z -> Z -> Z.

(** A call of a method of an iterator or a value.  The heap [h] has as its source
    0 the tokens that have been received and not been used.  If the call uses
    what comes after them ([probe] stands for that) another token is received; the
    calls of IterModel.v have no other effect before they receive a token that
    someone else can see, so that the call can be begun anew when the token is
    there.  [closed]: the end of the input has been seen.  A panic ends the
    process, which the theorems exclude. *)
CoFixpoint await {A} (m : hm A) (closed : bool) (h : heap) (k : bool -> heap -> A -> proc R) : proc R :=
  if closed then
    match m h with
    | Ok (h', a) => Compute (k true h' a)
    | _ => Compute forever
    end
  else
    match (match m (set_src h 0 (unread h ++ [probe])) with
           | Ok (h', a) => match unread h' with [] => None | u => Some (set_src h' 0 (removelast u), a) end
           | _ => None
           end) with
    | Some (h', a) => Compute (k false h' a)
    | None =>
        Receive (fun o => match o with
                          | None => await m true h k
                          | Some t => await m false (set_src h 0 (unread h ++ [t])) k
                          end)
    end.

(** WriteStream.Put: the channel to the next goroutine, or an accumulator
    (token/tokenstream.go:49-69). *)
Definition put (loud : bool) (t : token) (p : proc R) : proc R := if loud then Send t p else Compute p.

(** streamiterator.go:157-173, the loop of Copy: each token is put as soon as it has
    been read. *)
Fixpoint copy_loop (loud : bool) (fuel : nat) (r : rstream) (depth : Z) (closed : bool) (h : heap)
    (k : bool -> heap -> list token -> proc R) : proc R :=
  match fuel with
  | O => forever
  | S f =>
      await (snext grow r) closed h (fun closed h x =>
        match x with
        | None => k closed h []
        | Some item =>
            let depth1 := match item with
                          | TStartArr | TStartObj => (depth + 1)%Z
                          | TEndArr | TEndObj => (depth - 1)%Z
                          | _ => depth
                          end in
            put loud item
              (if (depth1 <? 0)%Z then k closed h [item]
               else copy_loop loud f r depth1 closed h (fun closed h ts => k closed h (item :: ts)))
        end)
  end.
(** streamiterator.go:151-174 [Copy], 67-69. *)
Definition copy_value (loud : bool) (fuel : nat) (v : value) (closed : bool) (h : heap)
    (k : bool -> heap -> list token -> proc R) : proc R :=
  match v with
  | VScalar s => put loud (TScalar s) (k closed h [TScalar s])
  | VArr c | VObj c =>
      await (ldo x <- get_coll c ; if c_started x then hpanic else put_coll c (set_done x) ;; hret x) closed h (fun closed h x =>
        let first := if c_obj x then TStartObj else TStartArr in
        put loud first (copy_loop loud fuel (c_stream x) 0 closed h (fun closed h ts => k closed h (first :: ts))))
  end.

(** A program of IterModel.v; what it copies is sent, if [loud]. *)
Fixpoint perform {A} (loud : bool) (f : nat) (p : iprog A) (closed : bool) (h : heap) (k : bool -> heap -> A -> proc R) : proc R :=
  match p with
  | IRet a => k closed h a
  | IPanic | IFuel => forever
  | IAdvance v c => await (ldo x <- coll_of v ; advance grow f x) closed h (fun closed h b => perform loud f (c b) closed h k)
  | ICurrent v c => await (current_value v) closed h (fun closed h x => perform loud f (c x) closed h k)
  | IKeyVal v c => await (current_key_val v) closed h (fun closed h x => perform loud f (c x) closed h k)
  | IClone v c => await (clone grow v) closed h (fun closed h x => perform loud f (c x) closed h k)
  | IDetach v c => await (detach grow v) closed h (fun closed h _ => perform loud f c closed h k)
  | ICopy v c => copy_value loud f v closed h (fun closed h ts => perform loud f (c ts) closed h k)
  | IDiscard v c => await (discard grow f v) closed h (fun closed h _ => perform loud f c closed h k)
  | IIterNew d c => await (iter_from_data d) closed h (fun closed h i => perform loud f (c i) closed h k)
  | IIterAdvance i c => await (iter_advance grow f i) closed h (fun closed h b => perform loud f (c b) closed h k)
  | IIterCurrent i c => await (iter_current i) closed h (fun closed h x => perform loud f (c x) closed h k)
  | IIterClone i c => await (iter_clone grow i) closed h (fun closed h j => perform loud f (c j) closed h k)
  | IIterDetach i c => await (iter_detach grow i) closed h (fun closed h _ => perform loud f c closed h k)
  end.

(** iterator/transformer.go:22-27: the loop over the values of the input.  What
    is done with a value has two parts: the first one sends nothing (its copies go
    to accumulators), the second one sends what it copies. *)
Fixpoint values_stage {C} (first : value -> iprog C) (second : C -> value -> iprog (list token)) (f n : nat) (closed : bool) (h : heap)
    (r : R) : proc R :=
  match n with
  | O => forever
  | S m =>
      await (iter_advance grow f 0) closed h (fun closed h b =>
        if b then
          await (iter_current 0) closed h (fun closed h o =>
            match o with
            | None => forever
            | Some v =>
                perform false f (first v) closed h (fun closed h c =>
                perform true f (second c v) closed h (fun closed h _ =>
                values_stage first second f m closed h r))
            end)
        else Return r)
  end.

(** transform/builtin.go:62-72. *)
Definition split_stage (n f : nat) (r : R) : proc R :=
  values_stage (fun _ => IRet tt) (fun _ => explode n) f n false (IterModel.start []) r.
(** transform/jsonpath/queryrunner.go:14-63. *)
Definition query_stage (find : bytes -> bytes -> option (nat * nat)) (q : runner) (n f : nat) (r : R) : proc R :=
  values_stage (compute_context find n q)
    (fun ctx v =>
      ilet (P, _) <- map_value ctx (transform_value find ctx n) n (rn_main q) v (PWrite []) ;
      match P with PWrite ts => IRet ts | _ => IPanic end)
    f n false (IterModel.start []) r.
End Values.

(** A goroutine that sends the tokens [ts]. *)
Fixpoint send_all {R} (ts : list token) (p : proc R) : proc R :=
  match ts with [] => p | t :: ts' => Send t (send_all ts' p) end.

Section Network.
Variable csv_records : bytes -> rerr -> list (list bytes) * bool.
Variable find : bytes -> bytes -> option (nat * nat).
Variable grow : Z -> Z -> Z.

(** main.go:192-198, token/pipeline.go:34-45.  The records of a CSV file are taken
    to be read at once: the decoder has no input but the file. *)
Definition source_goroutine (f : nat) (src : source) (input : reader) : proc (dres unit) :=
  match src with
  | SrcJson => source_stage cstep (new_scanner input jp_scanner) (produce f)
  | SrcJpv =>
      source_stage cstep (new_scanner input jp_scanner)
        (pbind (jproduce f []) (fun x => match x with JOk _ => Ret (DOk tt) | JErr e => Ret (DErr e) | JPanic => Stuck end))
  | SrcCsv objects header named =>
      match decode_csv jp_scanner objects header named (fst (csv_read csv_records input)) (snd (csv_read csv_records input)) with
      | Ok (ts, x) => send_all ts (Return x)
      | _ => forever
      end
  end.
(** main.go:205, token/pipeline.go:19-32: the transformers return nothing. *)
Definition stage_goroutine (n f : nat) (s : stage) : proc (dres unit) :=
  match s with
  | StSplit => split_stage grow n f (DOk tt)
  | StJoin => join_stage (DOk tt)
  | StTrace => trace_stage (DOk tt)
  | StDepth z => depth_stage (DOk tt) z
  | StQuery r => query_stage grow find r n f (DOk tt)
  end.
(** main.go:192-247: the decoder, the transformers and the encoder; the encoder is
    the sink that receives the tokens. *)
Definition network (n f : nat) (p : plan) : list (goroutine (dres unit)) :=
  PipelineModel.pipeline (DOk tt)
    (source_goroutine f (pl_source p) (pl_input p) :: map (stage_goroutine n f) (pl_stages p) ++ [copy_stage (DOk tt)]).
End Network.
