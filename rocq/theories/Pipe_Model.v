(* Model of util/BatchedPipeline.h and of ParserBatcher in parser/ParallelParseBuffer.h.
   All values have one type (the union of the types of the stages). A task that was started with
   std::async is a state of the future that it fulfils. One step of the model is one call of the
   creator, one call of a transformer, the end of a task, or a get() on a future together with the
   start of the next task. A shared transformer is called atomically (it must be threadsafe,
   BatchedPipeline.h:136-139). Timers are left out. *)
From Coq Require Import List Arith Bool.
Import ListNotations.

(* BatchedPipeline.h:23-29 *)
Record batch (V : Type) := Batch { isPipelineGood : bool; content : list V }.
Arguments Batch {V} _ _.
Arguments isPipelineGood {V} _.
Arguments content {V} _.
(* a call of the creator: std::optional, or an exception *)
Inductive made (V C : Type) := Value (v : V) (c : C) | End (c : C) | Raise.
Arguments Value {V C} v c.
Arguments End {V C} c.
Arguments Raise {V C}.

Section Pipe.
  Variables (V C S : Type).
  Variable next : C -> made V C.
  (* a transformer with its own state, None is an exception *)
  Notation transformer := (S -> V -> option (V * S)).
  Notation result := (option (batch V)).
  Variable batchSize : nat.

  (* std::future<Batch>: the running task, its result or exception, or no state after an exception
     was taken out *)
  Inductive bfuture := BRunning (left : nat) (acc : list V) | BReady (r : result) | BInvalid.
  (* a thread of createIthFuture, 312-323: what is to be done, and the results or an exception *)
  Record worker := Worker { todo : list V; done : option (list V) }.
  Inductive sfuture := SWaiting | SWorking (good : bool) (ws : list worker) | SReady (r : result) | SInvalid.
  (* 85-90 and 325-335: p is _previousStage, n is Parallelism *)
  Inductive pipe :=
  | Batcher (c : C) (f : bfuture)
  | Stage (p : pipe) (n : nat) (fs : list transformer) (ss : list S) (f : sfuture).

  (* 66-76, 93-102, 176-199: wait for the future, then start the next task; an exception leaves the
     future without a task. None: it has to wait *)
  Definition pickupBatch (p : pipe) : option (result * pipe) :=
    match p with
    | Batcher c (BReady (Some b)) => Some (Some b, Batcher c (BRunning batchSize []))
    | Batcher c (BReady None) => Some (None, Batcher c BInvalid)
    | Stage q n fs ss (SReady (Some b)) => Some (Some b, Stage q n fs ss SWaiting)
    | Stage q n fs ss (SReady None) => Some (None, Stage q n fs ss SInvalid)
    | _ => None
    end.
  (* 258-266; size is the size of a part *)
  Definition getBatchRange (l : list V) (n size idx : nat) : list V :=
    let first := Nat.min (idx * size) (length l) in
    let second := if idx <? n - 1 then Nat.min ((idx + 1) * size) (length l) else length l in
    firstn (second - first) (skipn first l).
  (* 236-239, 297-310 *)
  Definition start (n : nat) (l : list V) : list worker :=
    map (fun idx => Worker (getBatchRange l n (batchSize / n) idx) (Some [])) (seq 0 n).
  (* 301-309: one transformer for each thread or one for all of them *)
  Definition transformer_of (n : nat) (fs : list transformer) (j : nat) : nat := if n =? length fs then j else 0.
  Fixpoint set_nth {A} (i : nat) (x : A) (l : list A) : list A :=
    match l, i with
    | [], _ => []
    | _ :: l', O => x :: l'
    | y :: l', Datatypes.S i' => y :: set_nth i' x l'
    end.
  (* 242-249: the results in the order of the threads *)
  Fixpoint merged (ws : list worker) : option (list V) :=
    match ws with
    | [] => Some []
    | w :: ws' =>
        match done w, merged ws' with
        | Some d, Some r => Some (d ++ r)
        | _, _ => None
        end
    end.

  (* one step of one of the tasks *)
  Inductive step : pipe -> pipe -> Prop :=
  (* 108-125 *)
  | b_value c v c' i acc : next c = Value v c' -> step (Batcher c (BRunning (Datatypes.S i) acc)) (Batcher c' (BRunning i (acc ++ [v])))
  | b_end c c' i acc : next c = End c' -> step (Batcher c (BRunning (Datatypes.S i) acc)) (Batcher c' (BReady (Some (Batch false acc))))
  | b_raise c i acc : next c = Raise -> step (Batcher c (BRunning (Datatypes.S i) acc)) (Batcher c (BReady None))
  | b_full c acc : step (Batcher c (BRunning 0 acc)) (Batcher c (BReady (Some (Batch true acc))))
  (* 225-250 *)
  | s_inner p p' n fs ss f : step p p' -> step (Stage p n fs ss f) (Stage p' n fs ss f)
  | s_start p p' n fs ss b : pickupBatch p = Some (Some b, p') ->
      step (Stage p n fs ss SWaiting) (Stage p' n fs ss (SWorking (isPipelineGood b) (start n (content b))))
  | s_fail p p' n fs ss : pickupBatch p = Some (None, p') -> step (Stage p n fs ss SWaiting) (Stage p' n fs ss (SReady None))
  (* 268-279 *)
  | s_call p n fs ss good ws j v t d f s v' s' : nth_error ws j = Some (Worker (v :: t) (Some d)) ->
      nth_error fs (transformer_of n fs j) = Some f -> nth_error ss (transformer_of n fs j) = Some s -> f s v = Some (v', s') ->
      step (Stage p n fs ss (SWorking good ws))
           (Stage p n fs (set_nth (transformer_of n fs j) s' ss) (SWorking good (set_nth j (Worker t (Some (d ++ [v']))) ws)))
  | s_raise p n fs ss good ws j v t d f s : nth_error ws j = Some (Worker (v :: t) (Some d)) ->
      nth_error fs (transformer_of n fs j) = Some f -> nth_error ss (transformer_of n fs j) = Some s -> f s v = None ->
      step (Stage p n fs ss (SWorking good ws)) (Stage p n fs ss (SWorking good (set_nth j (Worker [] None) ws)))
  | s_finish p n fs ss good ws : Forall (fun w => todo w = []) ws ->
      step (Stage p n fs ss (SWorking good ws)) (Stage p n fs ss (SReady (option_map (Batch good) (merged ws)))).

  (* BatchExtractor, 499-513 *)
  Inductive efuture := EWaiting | EReady (r : result) | EInvalid.
  Record extractor := Extractor { pipeline : pipe; fut : efuture; buffer : list V; bufferPosition : nat; isPipelineValid : bool }.
  (* what getNextValue does: a value, nullopt, an exception, get() on a future without state *)
  Inductive event := Got (v : V) | Nothing | Thrown | Undefined.
  (* 471-482 *)
  Definition deliver (x : extractor) : event * extractor :=
    match nth_error (buffer x) (bufferPosition x) with
    | Some v => (Got v, Extractor (pipeline x) (fut x) (buffer x) (bufferPosition x + 1) (isPipelineValid x))
    | None => (Nothing, x)
    end.
  (* 456-484; None: it has to wait *)
  Definition getNextValue (x : extractor) : option (event * extractor) :=
    if (length (buffer x) =? bufferPosition x) && isPipelineValid x then
      match fut x with
      | EWaiting => None
      | EReady (Some b) =>
          Some (deliver (Extractor (pipeline x) (if isPipelineGood b then EWaiting else EInvalid) (content b) 0 (isPipelineGood b)))
      | EReady None => Some (Thrown, Extractor (pipeline x) EInvalid (buffer x) (bufferPosition x) (isPipelineValid x))
      | EInvalid => Some (Undefined, x)
      end
    else Some (deliver x).
  Inductive internal : extractor -> extractor -> Prop :=
  | i_pipe p p' f b n g : step p p' -> internal (Extractor p f b n g) (Extractor p' f b n g)
  | i_take p p' r b n g : pickupBatch p = Some (r, p') -> internal (Extractor p EWaiting b n g) (Extractor p' (EReady r) b n g).
  (* an execution with the events that the consumer has seen *)
  Inductive execution : extractor -> list event -> extractor -> Prop :=
  | e_none x : execution x [] x
  | e_internal x tr y z : execution x tr y -> internal y z -> execution x tr z
  | e_call x tr y e z : execution x tr y -> getNextValue y = Some (e, z) -> execution x (tr ++ [e]) z.

  (* 523-545: stages are given as parallelism, transformers and their states *)
  Definition stages := list (nat * list transformer * list S).
  Fixpoint setupParallelPipelineRecursive (sofar : pipe) (ts : stages) : pipe :=
    match ts with
    | [] => sofar
    | (n, fs, ss) :: ts' => setupParallelPipelineRecursive (Stage sofar n fs ss SWaiting) ts'
    end.
  Definition setupParallelPipeline (c : C) (ts : stages) : extractor :=
    Extractor (setupParallelPipelineRecursive (Batcher c (BRunning batchSize [])) ts) EWaiting [] 0 true.
End Pipe.

(* ParallelParseBuffer.h:25-61. The parser is the list of the triples that it has not delivered; the
   state is the parser, the number of triples parsed so far and whether the callback was called. *)
Definition parser_batcher {V} (maxNumTriples : nat) (s : list V * nat * bool) : made V (list V * nat * bool) :=
  let '(parser, parsed, exhausted) := s in
  if maxNumTriples <=? parsed then End s
  else match parser with
       | t :: parser' => Value t (parser', parsed + 1, exhausted)
       | [] => End (parser, parsed, true)
       end.

(* index/Index.cpp:155-226, the loop of passFileForVocabulary around the pipeline, without what is done
   with the values. Each round has a new pipeline with new maps; ts are its stages. The round ends when
   getNextValue returns nullopt; the pipeline may make further steps until it is destroyed. *)
Fixpoint pipe_creator {V C S} (p : pipe V C S) : C :=
  match p with
  | Batcher _ _ _ c _ => c
  | Stage _ _ _ q _ _ _ _ => pipe_creator q
  end.
Definition round {V S} (batchSize linesPerPartial : nat) (ts : stages V S) (parser : list V) (vs : list V) (parser' : list V) (parserExhausted : bool) : Prop :=
  exists y parsed,
    execution V _ S (parser_batcher linesPerPartial) batchSize (setupParallelPipeline V _ S batchSize (parser, 0, false) ts) (map (Got V) vs ++ [Nothing V]) y /\
    pipe_creator (pipeline V _ S y) = (parser', parsed, parserExhausted).
Inductive rounds {V S} (batchSize linesPerPartial : nat) (ts : stages V S) : list V -> list (list V) -> list V -> Prop :=
| r_last parser vs parser' : round batchSize linesPerPartial ts parser vs parser' true -> rounds batchSize linesPerPartial ts parser [vs] parser'
| r_more parser vs parser' vss parser'' : round batchSize linesPerPartial ts parser vs parser' false ->
    rounds batchSize linesPerPartial ts parser' vss parser'' -> rounds batchSize linesPerPartial ts parser (vs :: vss) parser''.
