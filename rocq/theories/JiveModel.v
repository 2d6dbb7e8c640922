(** Model of the Anemoi-Jive compression function, crypto/src/basic/jive.rs, for
    N = 2 (arrays [F; 2] are pairs). *)
From Coq Require Import List ZArith NArith Bool.
From Verif Require Import Base Field PField Power RescueModel.
Import ListNotations.

Section Jive.
Context (F : PField).
Local Open Scope F_scope.
Definition vec2 := (F * F)%type.

(** jive.rs 149-177: the constants of the trait [JiveCRH]; the round keys of X and
    Y are paired up round by round. *)
Record jive_params := mkJive {
  j_mds : vec2 * vec2; j_gen : F; j_gen_inv : F; j_alpha_inv : N; j_keys : list (vec2 * vec2) }.

(** jive.rs 32-40 [from_generator]. *)
Definition from_generator (g : F) : vec2 * vec2 := ((1, g), (g, g * g + 1)).

(** jive.rs 42-62 [permute_in_place]: the matrix on x, the matrix after swapping
    the words on y. *)
Definition mat2 (m : vec2 * vec2) (v : vec2) : vec2 :=
  (0 + fst (fst m) * fst v + snd (fst m) * snd v, 0 + fst (snd m) * fst v + snd (snd m) * snd v).
Definition permute (m : vec2 * vec2) (s : vec2 * vec2) : vec2 * vec2 :=
  let (x, y) := s in (mat2 m x, mat2 m (snd y, fst y)).

Section Params.
Context (J : jive_params).

(** jive.rs 191-195 and 219-223: the body of the inner loop for one index. *)
Definition flystel (x y : F) : F * F :=
  let x1 := x - j_gen J * (y * y) in
  let y1 := y - fpowN x1 (j_alpha_inv J) in
  (x1 + (j_gen J * (y1 * y1) + j_gen_inv J), y1).
(** jive.rs 185-196: one round. *)
Definition add2 (a b : vec2) : vec2 := (fst a + fst b, snd a + snd b).
Definition jive_round (k : vec2 * vec2) (s : vec2 * vec2) : vec2 * vec2 :=
  let '(x, y) := permute (j_mds J) (add2 (fst s) (fst k), add2 (snd s) (snd k)) in
  let (x0, y0) := flystel (fst x) (fst y) in
  let (x1, y1) := flystel (snd x) (snd y) in
  ((x0, x1), (y0, y1)).
Definition sum2 (s : vec2 * vec2) : F :=
  let '((x0, x1), (y0, y1)) := s in (0 + x0 + x1) + (0 + y0 + y1).

(** jive.rs 179-200 [eval]. *)
Definition eval (x y : vec2) : F :=
  let before := sum2 (x, y) in
  let s := fold_left (fun s k => jive_round k s) (j_keys J) (x, y) in
  let s := permute (j_mds J) s in
  before + sum2 s.

(** jive.rs 65-81 [JiveTrace]; the two intermediate arrays are one list of pairs. *)
Record jive_trace := mkTrace {
  input : vec2 * vec2; intermediate : list (vec2 * vec2); final : vec2 * vec2; output : F }.

(** jive.rs 204-233 [eval_with_trace]. *)
Fixpoint trace_loop (keys : list (vec2 * vec2)) (s : vec2 * vec2) (acc : list (vec2 * vec2))
  : (vec2 * vec2) * list (vec2 * vec2) :=
  match keys with
  | [] => (s, acc)
  | k :: keys' => let s' := jive_round k s in trace_loop keys' s' (acc ++ [s'])
  end.
Definition eval_with_trace (x y : vec2) : jive_trace :=
  let (s, inter) := trace_loop (j_keys J) (x, y) [] in
  let s' := permute (j_mds J) s in
  mkTrace (x, y) inter s' (sum2 (x, y) + sum2 s').
End Params.
End Jive.

(** jive.rs 246-340 [ROUND_KEYS_X]. *)
Definition jive_kx : list (Z * Z) :=
  [(39, 17756515227822460609684409997111995494590448775258437999344446424780281143353);
   (41362478282768062297187132445775312675360473883834860695283235286481594490621, 3384073892082712848969991795331397937188893616190315628722966662742467187281);
   (9548818195234740988996233204400874453525674173109474205108603996010297049928, 51311880822158488881090781617710146800056386303122657365679608608648067582435);
   (25365440569177822667580105183435418073995888230868180942004497015015045856900, 29347609441914902330741511702270026847909178228078752565372729158237774700914);
   (34023498397393406644117994167986720327178154686105264833093891093045919619309, 2339620320400167830454536231899316133967303509954474267430948538955691907104);
   (38816051319719761886041858113129205506758421478656182868737326994635468402951, 27338042530319738113354246208426108832239651080023276643867223794985578055610);
   (35167418087531820804128377095512663922179887277669504047069913414630376083753, 42192983528513372869128514327443204912824559545179630597589572656156258515752);
   (25885868839756469722325652387535232478219821850603640827385444642154834700231, 42721818980548514490325424436763032046927347769153393863616095871384405840432);
   (8867588811641202981080659274007552529205713737251862066053445622305818871963, 23473499332437056484066006746048591864129988909190267521144125882222313735740);
   (36439756010140137556111047750162544185710881404522379792044818039722752946048, 16497366583607480604161417644040292299204496829635795525393416854929276060989);
   (7788624504122357216765350546787885309160020166693449889975992574536033007374, 16727395967350522643500778393489915391834352737211416857240725807058479128000);
   (3134147137704626983201116226440762775442116005053282329971088789984415999550, 46525506418681456193255596516104416743523037046982280449529426136392814992763)]%Z.
(** jive.rs 342-438 [ROUND_KEYS_Y]. *)
Definition jive_ky : list (Z * Z) :=
  [(14981678621464625851270783002338847382197300714436467949315331057125308909900, 48720959343719104324739338388885839802998711550637402773896395605948383052052);
   (28253420209785428420233456008091632509255652343634529984400816700490470131093, 6257781313532096835800460747082714697295034136932481743077166200794135826591);
   (51511939407083344002778208487678590135577660247075600880835916725469990319313, 4386017178186728799761421274050927732938229436976005221436222062273391481632);
   (46291121544435738125248657675097664742296276807186696922340332893747842754587, 13820180736478645172746469075181304604729976364812127548341524461074783412926);
   (3650460179273129580093806058710273018999560093475503119057680216309578390988, 40385222771838099109662234020243831589690223478794847201235014486200724862134);
   (45802223370746268123059159806400152299867771061127345631244786118574025749328, 50306980075778262214155693291132052551559962723436936231611301042966928400825);
   (11798621276624967315721748990709309216351696098813162382053396097866233042733, 34806952212038537244506031612074847133207330427265785757809673463434908473570);
   (42372918959432199162670834641599336326433006968669415662488070504036922966492, 22755759419530071315007011572076166983660942447634027701351681157370705921018);
   (52181371244193189669553521955614617990714056725501643636576377752669773323445, 30334172084294870556875274308904688414158741457854908094300017436690480001547);
   (23791984554824031672195249524658580601428376029501889159059009332107176394097, 19832360622723392584029764807971325641132953515557801717644226271356492507876);
   (33342520831620303764059548442834699069640109058400548818586964467754352720368, 5828182614154296575131381170785760240834851189333374788484657124381010655319);
   (16791548253207744974576845515705461794133799104808996134617754018912057476556, 23729797853490401568967730686618146850735129707152853256809050789424668284094)]%Z.
(** jive.rs 440-536 [PREPROCESSED_ROUND_KEYS_X]. *)
Definition jive_px : list (Z * Z) :=
  [(19423856244504843308895388963412036786752036425753790350203807573584805634484, 48851758589103982813056651724624321326473598754479694805563782039996758215715);
   (12615120352220861760529334504909132397992176696639432273740343225740283617075, 39254041182502554693227592821509358885443577992138703722301710542985871322293);
   (1680857724460829800497520971070141190086510791274611006640253356976701835382, 10642009718258107005125687907015169292971409341517296589557723407546399245596);
   (21055205962077377064979725066581742658597925825308897609198966322925144025246, 19426425651077970347256365643784327945023001503658122361954517318898039324097);
   (50400840640194581457299747791281933264949279255786584705110530865735762969037, 40530253751005095154866327721757053962468943297294740267582712399474545583285);
   (20438848331453166761730619539368103981673769036708568085393258759780190054169, 13102355325113334007125361459444939190884376835400339773809059013631164881254);
   (15903051736368288011341534338499303285808489090761091294574969808092698586939, 48642595332839007989623773680566396238102878179451994014407043912927986255299);
   (10323350652838928277917180395760661780567941231511570937076163542214188476177, 10113523200168631476850206190715732835521831388679114777941923267006562804645);
   (15874458613322026931199484971789798065043978600000821246251350698046271468604, 29722959275438864043566920532205246644056734108140740599696263368669051646942);
   (47049571745140120826345490242072658604761254210917672824591418624350523003945, 31229117748831183511893406289433107506389961302893678361911395025751449981526);
   (20008645925323634762375318284845361376619384326118092245453755824068224534348, 51916167094363585021232525371035513352788938018982786930209699175658888499410);
   (14197441017717677459303848790055884953960060330763418541055119545102633841813, 41035843192452817449487057030123679745862354361270934591707945552234089516428)]%Z.
(** jive.rs 538-634 [PREPROCESSED_ROUND_KEYS_Y]. *)
Definition jive_py : list (Z * Z) :=
  [(48720959343719104324739338388885839802998711550637402773896395605948383052326, 41413142976741213247759708675423930977044966565732460430968148099132503169104);
   (46724097256651524339091431279166244749012943040791278166071907004411683190703, 40706849955588955917187031913139550726202938626007650211282213531740765358936);
   (50354341977012993942522437638685263655838536163339384451665686940931836609745, 36941207020290968244301088401173674862613545886757827284270114412422778295937);
   (23242780496771669172800629751749162774660599011953179069101902517678195587957, 51682959496458850896509844412783906651848812389276036938242674417679468316747);
   (13502568851623815690871135923029776884996591632595731212035117300429192414537, 45732566965513648936744017011732745376285149021117983780699842619375344108234);
   (3871417445118805719435628378631357786800492647634890892099192973415040354530, 20466270311451717679660817948633690969780667094043944053335478232540727046525);
   (12525550798160927495662793530668079972288098117902646786976128748621377403675, 47041601688625269305913563197199903184677830423604052068282638638277293683945);
   (4750941084798322577016411014155726242548676225154110403146222485997679579384, 23193631377894266722337971232503454186583188044220550661907969206082098837667);
   (28552644567763864887615744440905253485323271032672948792109050805808824974071, 42306382518035481965072771009207529037214743952101733890925098593577223403890);
   (29068626981113042851053289956023492338059928220488112363246315496290983713016, 17528872722110569711777317184079163617085663570808124411368583006389737647157);
   (29482327734991661005757258237884790377553404596026665228178773598907154959843, 29975314276057168886569394075284368361751731228476654125423744860350112701217);
   (36398885275692235432110168280184447734290618439760550553926011521931908250960, 9404369307422440602109320936066766745715365680494660899081541172742509310711)]%Z.
(** jive.rs 640-647 [get_alpha_inv]. *)
Definition jive_alpha_inv : N :=
  of_limbs (2 ^ 64) [3689348813023923405; 2413663763415232921; 16233882818423549954; 3341406743785779740]%N.
(** jive.rs 240-245: ALPHA, GENERATOR, GENERATOR_INV, GENERATOR_SQUARE_PLUS_ONE. *)
Definition JIVE_ALPHA : N := 7.
Definition jive_gen : Z := 7.
Definition jive_gen_inv : Z := 14981678621464625851270783002338847382197300714436467949315331057125308909861.
Definition jive_gen2p1 : Z := 50.
(** jive.rs 636-639 [MDS_MATRIX]. *)
Definition jive_mds : (Z * Z) * (Z * Z) := ((1, 7), (7, 50))%Z.
Definition of2 (v : Z * Z) : vec2 BLS := (fofZ (F := BLS) (fst v), fofZ (F := BLS) (snd v)).

(** jive.rs 239-648 [JiveCRH381]. *)
Definition jive381 : jive_params BLS :=
  mkJive BLS (of2 (fst jive_mds), of2 (snd jive_mds)) (fofZ (F := BLS) jive_gen) (fofZ (F := BLS) jive_gen_inv)
         jive_alpha_inv (combine (map of2 jive_kx) (map of2 jive_ky)).
