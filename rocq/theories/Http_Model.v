(* Model of the requests and answers of the server: src/util/Socket.h 118-143 (send), 150-196
   (getHTTPRequest), src/engine/Server.cpp 110-141 (process, up to the parameters), 256-329
   (parseHttpRequest, createQueryFromHttpParams). Bytes are numbers, positions are nat; npos is None. *)
From Coq Require Import String List NArith Arith Bool.
From Verif Require Import Strings_Model.
From Verif Require Import Conv_Model(bytes).
Import ListNotations.
Open Scope N_scope.

Notation text := (list N).
Inductive outcome A := Ok (a : A) | BadRequest | OutOfFuel.
Arguments Ok {A} a. Arguments BadRequest {A}. Arguments OutOfFuel {A}.
Definition CRLF : text := [13; 10].

(* Socket.h 150-196; a chunk is what one call of recv delivers, no further chunk is the end of the
   connection (or an error). The result is the request line, the headers and what was not read. *)
Fixpoint receive (req data : text) (chunks : list text) : text * text * list text :=
  match chunks with
  | [] => (req, [], [])
  | chunk :: rest =>
    let data := data ++ chunk in
    let (req, data) :=
      if Nat.eqb (length req) 0 then
        match find_str CRLF data with
        | Some p => (substr data 0 p, skipn p data)
        | None => (req, data)
        end
      else (req, data) in
    if Nat.ltb 0 (length req) then
      match find_str (bytes "HTTP") req with
      | None => (req, [], rest)
      | Some _ =>
        match find_str (CRLF ++ CRLF) data with
        | Some _ => (req, data, rest)
        | None => receive req data rest
        end
      end
    else receive req data rest
  end.
Definition getHTTPRequest (chunks : list text) : text * text * list text := receive [] [] chunks.

(* Socket.h 126-143; the replies say how many bytes each call of ::send takes, None is -1 with errno
   11. The result is what was sent. Numbers of bytes are below 2^31 (they are compared as int). The
   retries are counted inside of LOG(DEBUG), so only if the log level (Log.h 18-26, INFO unless it
   is a debug build) includes DEBUG. *)
Fixpoint send (debug : bool) (replies : list (option nat)) (data : text) (timesRetry : nat) : text :=
  match replies with
  | [] => []
  | Some nb :: replies' =>
    if Nat.eqb nb (length data) then data else firstn nb data ++ send debug replies' (skipn nb data) 5
  | None :: replies' =>
    match timesRetry with O => [] | S n => send debug replies' data (if debug then n else timesRetry) end
  end.

(* substr(from, to - from), where to - from wraps to a great number if to < from *)
Definition substr_to (s : text) (from to : nat) : text :=
  if Nat.ltb to from then skipn from s else substr s from (to - from).

(* getLowercaseUtf8, here for names in ASCII *)
Definition lowercase (s : text) : text := map tolower s.
(* HashMap, in the order of the insertions *)
Definition params := list (text * text).
Definition contains (m : params) (k : text) : bool := existsb (fun e => if list_eq_dec N.eq_dec (fst e) k then true else false) m.
Fixpoint value_of (m : params) (k : text) : option text :=
  match m with
  | [] => None
  | (k', v) :: m' => if list_eq_dec N.eq_dec k' k then Some v else value_of m' k
  end.

(* Server.cpp 284-297 and, with the end of the request, 301-313 *)
Definition one_param (request : text) (index last : nat) (m : params) : outcome params :=
  match find_from (N.eqb 61) request (index + 1) with
  | None => BadRequest
  | Some posOfEq =>
    let param := lowercase (substr_to request (index + 1) posOfEq) in
    let value := decodeUrl (substr_to request (posOfEq + 1) last) in
    if contains m param then BadRequest else Ok (m ++ [(param, value)])
  end.
(* Server.cpp 282-316. The last value ends before the last character; size() - 1 is no wrap, as
   there is a question mark. *)
Fixpoint params_loop (fuel : nat) (request : text) (index : nat) (m : params) : outcome params :=
  match fuel with
  | O => OutOfFuel
  | S fuel' =>
    match find_from (N.eqb 38) request (index + 1) with
    | Some next =>
      match one_param request index next m with
      | Ok m' => params_loop fuel' request next m'
      | BadRequest => BadRequest
      | OutOfFuel => OutOfFuel
      end
    | None => one_param request index (length request - 1) m
    end
  end.
(* Server.cpp 256-317 *)
Definition parseHttpRequest (httpRequest : text) : outcome params :=
  match find_str (bytes "GET") httpRequest, find_str (bytes "HTTP") httpRequest with
  | Some indexOfGET, Some indexOfHTTP =>
    let request := substr_to httpRequest (indexOfGET + 3) indexOfHTTP in
    match find_from (N.eqb 63) request 0 with
    | None => BadRequest
    | Some index => params_loop (S (length request)) request index []
    end
  | _, _ => BadRequest
  end.
(* Server.cpp 320-329 *)
Definition createQueryFromHttpParams (m : params) : outcome text :=
  match value_of m (bytes "query") with
  | None | Some [] => BadRequest
  | Some q => Ok q
  end.

(* Server.cpp 110-141: what is done with a request line. Error is an answer with the message of an
   exception; Crash is an exception of line 119 (substr from a position after the end), which is not
   caught in the thread and ends the server. *)
Inductive answer := File (name : text) | NotFound | Params (m : params) | Error | Invalid | Crash.
Definition process (request : text) : answer :=
  match find_str (bytes "GET") request, find_str (bytes "HTTP") request with
  | Some indexOfGET, Some indexOfHTTP =>
    let upper := match find_from (N.eqb 63) request indexOfGET with
                 | Some q => if Nat.ltb q indexOfHTTP then (q + 1)%nat else indexOfHTTP
                 | None => indexOfHTTP
                 end in
    if Nat.ltb (length request) (indexOfGET + 5) then Crash else
    let file := substr_to request (indexOfGET + 5) (upper - 1) in
    let file := match file with
                | [] => if at_ request (indexOfGET + 5) =? 63 then [] else bytes "index.html"
                | _ => file
                end in
    match file with
    | [] => match parseHttpRequest request with Ok m => Params m | _ => Error end
    | _ => if existsb (fun f => if list_eq_dec N.eq_dec file f then true else false) [bytes "index.html"; bytes "style.css"; bytes "script.js"]
           then File file else NotFound
    end
  | _, _ => Invalid
  end.
