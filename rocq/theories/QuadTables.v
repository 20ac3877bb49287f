(** QuadTables.v -- the tables of Gauss-Legendre nodes and weights, transcribed
    mechanically from the assignments of the C++ source.  A decimal literal d is
    represented by the integer d * 10^36 (no literal has more than 36 decimals),
    so the representation is exact; the rounding of the literal to a double is
    not modelled.  Each case of the C++ switch is the list of the assignments
    (index, value) it performs, in order, duplicates included. *)
From Coq Require Import ZArith List.
Import ListNotations.
Local Open Scope Z_scope.

(** src/numerics/nodes.cpp 97-~503: the switch of get_gauss_legendre_segment_nodes. *)
Definition gl_node_assignments (order : Z) : list (Z * Z) :=
  match order with
  | 0 | 1 => [(0, 0)]
  | 2 | 3 => [(0, -577350269189625764509148780501960000);
      (1, 577350269189625764509148780501960000)]
  | 4 | 5 => [(0, -774596669241483377035853079956480000);
      (1, 0);
      (2, 774596669241483377035853079956480000)]
  | 6 | 7 => [(0, -861136311594052575223946488892810000);
      (1, -339981043584856264802665759103240000);
      (2, 339981043584856264802665759103240000);
      (3, 861136311594052575223946488892810000)]
  | 8 | 9 => [(0, -906179845938663992797626878299390000);
      (1, -538469310105683091036314420700210000);
      (2, 0);
      (3, 538469310105683091036314420700210000);
      (4, 906179845938663992797626878299390000)]
  | 10 | 11 => [(0, -932469514203152027812301554493990000);
      (1, -661209386466264513661399595019910000);
      (2, -238619186083196908630501721680710000);
      (3, 238619186083196908630501721680710000);
      (4, 661209386466264513661399595019910000);
      (5, 932469514203152027812301554493990000)]
  | 12 | 13 => [(0, -949107912342758524526189684047850000);
      (1, -741531185599394439863864773280790000);
      (2, -405845151377397166906606412076960000);
      (3, 0);
      (4, 405845151377397166906606412076960000);
      (5, 741531185599394439863864773280790000);
      (6, 949107912342758524526189684047850000)]
  | 14 | 15 => [(0, -960289856497536231683560868569470000);
      (1, -796666477413626739591553936475830000);
      (2, -525532409916328985817739049189250000);
      (3, -183434642495649804939476142360180000);
      (4, 183434642495649804939476142360180000);
      (5, 525532409916328985817739049189250000);
      (6, 796666477413626739591553936475830000);
      (7, 960289856497536231683560868569470000)]
  | 16 | 17 => [(0, -968160239507626089835576202903670000);
      (1, -836031107326635794299429788069730000);
      (2, -613371432700590397308702039341470000);
      (3, -324253423403808929038538014643340000);
      (4, 0);
      (5, 324253423403808929038538014643340000);
      (6, 613371432700590397308702039341470000);
      (7, 836031107326635794299429788069730000);
      (8, 968160239507626089835576202903670000)]
  | 18 | 19 => [(0, -973906528517171720077964012084450000);
      (1, -865063366688984510732096688423490000);
      (2, -679409568299024406234327365114870000);
      (3, -433395394129247190799265943165780000);
      (4, -148874338981631210884826001129720000);
      (5, 148874338981631210884826001129720000);
      (6, 433395394129247190799265943165780000);
      (7, 679409568299024406234327365114870000);
      (8, 865063366688984510732096688423490000);
      (9, 973906528517171720077964012084450000)]
  | 20 | 21 => [(0, -978228658146056992803938001122860000);
      (1, -887062599768095299075157769303930000);
      (2, -730152005574049324093416252031150000);
      (3, -519096129206811815925725669458610000);
      (4, -269543155952344972331531985400860000);
      (5, 0);
      (6, 269543155952344972331531985400860000);
      (7, 519096129206811815925725669458610000);
      (8, 730152005574049324093416252031150000);
      (9, 887062599768095299075157769303930000);
      (10, 978228658146056992803938001122860000)]
  | 22 | 23 => [(0, -981560634246719250690549090149280000);
      (1, -904117256370474856678465866119100000);
      (2, -769902674194304687036893833212820000);
      (3, -587317954286617447296702418940530000);
      (4, -367831498998180193752691536643720000);
      (5, -125233408511468915472441369463850000);
      (6, 125233408511468915472441369463850000);
      (7, 367831498998180193752691536643720000);
      (8, 587317954286617447296702418940530000);
      (9, 769902674194304687036893833212820000);
      (10, 904117256370474856678465866119100000);
      (11, 981560634246719250690549090149280000)]
  | 24 | 25 => [(0, -984183054718588149472829448807110000);
      (1, -917598399222977965206547836500720000);
      (2, -801578090733309912794206489582860000);
      (3, -642349339440340220643984606995520000);
      (4, -448492751036446852877912852127640000);
      (5, -230458315955134794065528121097990000);
      (6, 0);
      (7, 230458315955134794065528121097990000);
      (8, 448492751036446852877912852127640000);
      (9, 642349339440340220643984606995520000);
      (10, 801578090733309912794206489582860000);
      (11, 917598399222977965206547836500720000);
      (12, 984183054718588149472829448807110000)]
  | 26 | 27 => [(0, -986283808696812338841597266704050000);
      (1, -928434883663573517336391139377870000);
      (2, -827201315069764993189794742650390000);
      (3, -687292904811685470148019803019330000);
      (4, -515248636358154091965290718551190000);
      (5, -319112368927889760435671824168480000);
      (6, -108054948707343662066244650219830000);
      (7, 108054948707343662066244650219830000);
      (8, 319112368927889760435671824168480000);
      (9, 515248636358154091965290718551190000);
      (10, 687292904811685470148019803019330000);
      (11, 827201315069764993189794742650390000);
      (12, 928434883663573517336391139377870000);
      (13, 986283808696812338841597266704050000)]
  | 28 | 29 => [(0, -987992518020485428489565718586610000);
      (1, -937273392400705904307758947710210000);
      (2, -848206583410427216200648320774220000);
      (3, -724417731360170047416186054613940000);
      (4, -570972172608538847537226737253910000);
      (5, -394151347077563369897207370981050000);
      (6, -201194093997434522300628303394600000);
      (7, 0);
      (8, 201194093997434522300628303394600000);
      (9, 394151347077563369897207370981050000);
      (10, 570972172608538847537226737253910000);
      (11, 724417731360170047416186054613940000);
      (12, 848206583410427216200648320774220000);
      (13, 937273392400705904307758947710210000);
      (14, 987992518020485428489565718586610000)]
  | 30 | 31 => [(0, -989400934991649932596154173450330000);
      (1, -944575023073232576077988415534610000);
      (2, -865631202387831743880467897712390000);
      (3, -755404408355003033895101194847440000);
      (4, -617876244402643748446671764048790000);
      (5, -458016777657227386342419442983580000);
      (6, -281603550779258913230460501460500000);
      (7, -95012509837637440185319335424958000);
      (8, 95012509837637440185319335424958000);
      (9, 281603550779258913230460501460500000);
      (10, 458016777657227386342419442983580000);
      (11, 617876244402643748446671764048790000);
      (12, 755404408355003033895101194847440000);
      (13, 865631202387831743880467897712390000);
      (14, 944575023073232576077988415534610000);
      (15, 989400934991649932596154173450330000)]
  | 32 | 33 => [(0, -990575475314417335675434019940670000);
      (1, -950675521768767761222716957895800000);
      (2, -880239153726985902122955694488160000);
      (3, -781514003896801406925230055520480000);
      (4, -657671159216690765850302216643000000);
      (5, -512690537086476967886246568629550000);
      (6, -351231763453876315297185517095350000);
      (7, -178484181495847855850677493654070000);
      (8, 0);
      (9, 178484181495847855850677493654070000);
      (10, 351231763453876315297185517095350000);
      (11, 512690537086476967886246568629550000);
      (12, 657671159216690765850302216643000000);
      (13, 781514003896801406925230055520480000);
      (14, 880239153726985902122955694488160000);
      (15, 950675521768767761222716957895800000);
      (16, 990575475314417335675434019940670000)]
  | 34 | 35 => [(0, -991565168420930946730016004706150000);
      (1, -955823949571397755181195892929780000);
      (2, -892602466497555739206060591127150000);
      (3, -803704958972523115682417455014590000);
      (4, -691687043060353207874891081288850000);
      (5, -559770831073947534607871548525330000);
      (6, -411751161462842646035931793833050000);
      (7, -251886225691505509588972854877910000);
      (8, -84775013041735301242261852935784000);
      (9, 84775013041735301242261852935784000);
      (10, 251886225691505509588972854877910000);
      (11, 411751161462842646035931793833050000);
      (12, 559770831073947534607871548525330000);
      (13, 691687043060353207874891081288850000);
      (14, 803704958972523115682417455014590000);
      (15, 892602466497555739206060591127150000);
      (16, 955823949571397755181195892929780000);
      (17, 991565168420930946730016004706150000)]
  | 36 | 37 => [(0, -992406843843584403189017670253260000);
      (1, -960208152134830030852778840687650000);
      (2, -903155903614817901642660928532310000);
      (3, -822714656537142824978922486712710000);
      (4, -720966177335229378617095860823780000);
      (5, -600545304661681023469638164946240000);
      (6, -464570741375960945717267148104100000);
      (7, -316564099963629831990117328849840000);
      (8, -160358645640225375868096115740740000);
      (9, 0);
      (10, 160358645640225375868096115740740000);
      (11, 316564099963629831990117328849840000);
      (12, 464570741375960945717267148104100000);
      (13, 600545304661681023469638164946240000);
      (14, 720966177335229378617095860823780000);
      (16, 822714656537142824978922486712710000);
      (16, 903155903614817901642660928532310000);
      (17, 960208152134830030852778840687650000);
      (18, 992406843843584403189017670253260000)]
  | 38 | 39 => [(0, -993128599185094924786122388471320000);
      (1, -963971927277913791267666131197280000);
      (2, -912234428251325905867752441203300000);
      (3, -839116971822218823394529061701520000);
      (4, -746331906460150792614305070355640000);
      (5, -636053680726515025452836696226290000);
      (6, -510867001950827098004364050955250000);
      (7, -373706088715419560672548177024930000);
      (8, -227785851141645078080496195368570000);
      (9, -76526521133497333754640409398838000);
      (10, 76526521133497333754640409398838000);
      (11, 227785851141645078080496195368570000);
      (12, 373706088715419560672548177024930000);
      (13, 510867001950827098004364050955250000);
      (14, 636053680726515025452836696226290000);
      (15, 746331906460150792614305070355640000);
      (16, 839116971822218823394529061701520000);
      (17, 912234428251325905867752441203300000);
      (18, 963971927277913791267666131197280000);
      (19, 993128599185094924786122388471320000)]
  | 40 | 41 => [(0, -993752170620389500260242035937940000);
      (1, -967226838566306294316622214907700000);
      (2, -920099334150400828790187133714970000);
      (3, -853363364583317283647250638587570000);
      (4, -768439963475677908615877851306230000);
      (5, -667138804197412319305966669990340000);
      (6, -551618835887219807059018796724310000);
      (7, -424342120207438783573668888543790000);
      (8, -288021316802401096600792516064600000);
      (9, -145561854160895090937030982338690000);
      (10, 0);
      (11, 145561854160895090937030982338690000);
      (12, 288021316802401096600792516064600000);
      (13, 424342120207438783573668888543790000);
      (14, 551618835887219807059018796724310000);
      (15, 667138804197412319305966669990340000);
      (16, 768439963475677908615877851306230000);
      (17, 853363364583317283647250638587570000);
      (18, 920099334150400828790187133714970000);
      (19, 967226838566306294316622214907700000);
      (20, 993752170620389500260242035937940000)]
  | 42 | 43 => [(0, -994294585482399292073031421161300000);
      (1, -970060497835428727123950986765270000);
      (2, -926956772187174000520692939259050000);
      (3, -865812577720300136536425637019380000);
      (4, -787816805979208162004277955408350000);
      (5, -694487263186682780050689835762260000);
      (6, -587640403506911592958876927638650000);
      (7, -469355837986757026406330710966410000);
      (8, -341935820892084225158147420427380000);
      (9, -207860426688221285478846533919550000);
      (10, -69739273319722221213841796118628000);
      (11, 69739273319722221213841796118628000);
      (12, 207860426688221285478846533919550000);
      (13, 341935820892084225158147420427380000);
      (14, 469355837986757026406330710966410000);
      (15, 587640403506911592958876927638650000);
      (16, 694487263186682780050689835762260000);
      (17, 787816805979208162004277955408350000);
      (18, 865812577720300136536425637019380000);
      (19, 926956772187174000520692939259050000);
      (20, 970060497835428727123950986765270000);
      (21, 994294585482399292073031421161300000)]
  | 44 | 45 => [(0, -994769334997552123523925715445570000);
      (1, -972542471218115231956024076820780000);
      (2, -932971086826016102349196989038420000);
      (3, -876752358270441667378156885934150000);
      (4, -804888401618839892151118406996780000);
      (5, -718661363131950194461624483748620000);
      (6, -619609875763646156385097311649600000);
      (7, -509501477846007549689793047866850000);
      (8, -390301038030290831421488872880610000);
      (9, -264135680970344930533869538283310000);
      (10, -133256824298466110931742682241770000);
      (11, 0);
      (12, 133256824298466110931742682241770000);
      (13, 264135680970344930533869538283310000);
      (14, 390301038030290831421488872880610000);
      (15, 509501477846007549689793047866850000);
      (16, 619609875763646156385097311649600000);
      (17, 718661363131950194461624483748620000);
      (18, 804888401618839892151118406996780000);
      (19, 876752358270441667378156885934150000);
      (20, 932971086826016102349196989038420000);
      (21, 972542471218115231956024076820780000);
      (22, 994769334997552123523925715445570000)]
  | 46 | 47 => [(0, -995187219997021360179997409700740000);
      (1, -974728555971309498198391993008170000);
      (2, -938274552002732758523649001708720000);
      (3, -886415527004401034213154341982200000);
      (4, -820001985973902921953949872669750000);
      (5, -740124191578554364243828103099980000);
      (6, -648093651936975569252495786910750000);
      (7, -545421471388839535658375617218370000);
      (8, -433793507626045138487084231913350000);
      (9, -315042679696163374386793291319810000);
      (10, -191118867473616309158639820757070000);
      (11, -64056892862605626085043082624745000);
      (12, 64056892862605626085043082624745000);
      (13, 191118867473616309158639820757070000);
      (14, 315042679696163374386793291319810000);
      (15, 433793507626045138487084231913350000);
      (16, 545421471388839535658375617218370000);
      (17, 648093651936975569252495786910750000);
      (18, 740124191578554364243828103099980000);
      (19, 820001985973902921953949872669750000);
      (20, 886415527004401034213154341982200000);
      (21, 938274552002732758523649001708720000);
      (22, 974728555971309498198391993008170000);
      (23, 995187219997021360179997409700740000)]
  | 48 | 49 => [(0, -995556969790498097908784946893900000);
      (1, -976663921459517511498315386479590000);
      (2, -942974571228974339414011169658470000);
      (3, -894991997878275368851042006782800000);
      (4, -833442628760834001421021108693570000);
      (5, -759259263037357630577282865204360000);
      (6, -673566368473468364485120633247620000);
      (7, -577662930241222967723689841612650000);
      (8, -473002731445714960522182115009190000);
      (9, -361172305809387837735821730127640000);
      (10, -243866883720988432045190362797450000);
      (11, -122864692610710396387359818808040000);
      (12, 0);
      (13, 122864692610710396387359818808040000);
      (14, 243866883720988432045190362797450000);
      (15, 361172305809387837735821730127640000);
      (16, 473002731445714960522182115009190000);
      (17, 577662930241222967723689841612650000);
      (18, 673566368473468364485120633247620000);
      (19, 759259263037357630577282865204360000);
      (20, 833442628760834001421021108693570000);
      (21, 894991997878275368851042006782800000);
      (22, 942974571228974339414011169658470000);
      (23, 976663921459517511498315386479590000);
      (24, 995556969790498097908784946893900000)]
  | _ => []
  end.

(** src/numerics/quadrature/segment.cpp 7-411: the switch of get_segment_weights_gl. *)
Definition gl_weight_assignments (order : Z) : list (Z * Z) :=
  match order with
  | 0 | 1 => [(0, 2000000000000000000000000000000000000)]
  | 2 | 3 => [(0, 1000000000000000000000000000000000000);
      (1, 1000000000000000000000000000000000000)]
  | 4 | 5 => [(0, 555555555555555555555555555555560000);
      (1, 888888888888888888888888888888890000);
      (2, 555555555555555555555555555555560000)]
  | 6 | 7 => [(0, 347854845137453857373063949222000000);
      (1, 652145154862546142626936050778000000);
      (2, 652145154862546142626936050778000000);
      (3, 347854845137453857373063949222000000)]
  | 8 | 9 => [(0, 236926885056189087514264040719920000);
      (1, 478628670499366468041291514835640000);
      (2, 568888888888888888888888888888890000);
      (3, 478628670499366468041291514835640000);
      (4, 236926885056189087514264040719920000)]
  | 10 | 11 => [(0, 171324492379170345040296142172730000);
      (1, 360761573048138607569833513837720000);
      (2, 467913934572691047389870343989550000);
      (3, 467913934572691047389870343989550000);
      (4, 360761573048138607569833513837720000);
      (5, 171324492379170345040296142172730000)]
  | 12 | 13 => [(0, 129484966168869693270611432679080000);
      (1, 279705391489276667901467771423780000);
      (2, 381830050505118944950369775488980000);
      (3, 417959183673469387755102040816330000);
      (4, 381830050505118944950369775488980000);
      (5, 279705391489276667901467771423780000);
      (6, 129484966168869693270611432679080000)]
  | 14 | 15 => [(0, 101228536290376259152531354309960000);
      (1, 222381034453374470544355994426240000);
      (2, 313706645877887287337962201986600000);
      (3, 362683783378361982965150449277200000);
      (4, 362683783378361982965150449277200000);
      (5, 313706645877887287337962201986600000);
      (6, 222381034453374470544355994426240000);
      (7, 101228536290376259152531354309960000)]
  | 16 | 17 => [(0, 81274388361574411971892158110524000);
      (1, 180648160694857404058472031242910000);
      (2, 260610696402935462318742869418630000);
      (3, 312347077040002840068630406584440000);
      (4, 330239355001259763164525069286970000);
      (5, 312347077040002840068630406584440000);
      (6, 260610696402935462318742869418630000);
      (7, 180648160694857404058472031242910000);
      (8, 81274388361574411971892158110524000)]
  | 18 | 19 => [(0, 66671344308688137593568809893332000);
      (1, 149451349150580593145776339657700000);
      (2, 219086362515982043995534934228160000);
      (3, 269266719309996355091226921569470000);
      (4, 295524224714752870173892994651340000);
      (5, 295524224714752870173892994651340000);
      (6, 269266719309996355091226921569470000);
      (7, 219086362515982043995534934228160000);
      (8, 149451349150580593145776339657700000);
      (9, 66671344308688137593568809893332000)]
  | 20 | 21 => [(0, 55668567116173666482753720442549000);
      (1, 125580369464904624634694299223940000);
      (2, 186290210927734251426097641431660000);
      (3, 233193764591990479918523704843180000);
      (4, 262804544510246662180688869890510000);
      (5, 272925086777900630714483528336340000);
      (6, 262804544510246662180688869890510000);
      (7, 233193764591990479918523704843180000);
      (8, 186290210927734251426097641431660000);
      (9, 125580369464904624634694299223940000);
      (10, 55668567116173666482753720442549000)]
  | 22 | 23 => [(0, 47175336386511827194615961485017000);
      (1, 106939325995318430960254718194000000);
      (2, 160078328543346226334652529543360000);
      (3, 203167426723065921749064455809800000);
      (4, 233492536538354808760849898924880000);
      (5, 249147045813402785000562436042950000);
      (6, 249147045813402785000562436042950000);
      (7, 233492536538354808760849898924880000);
      (8, 203167426723065921749064455809800000);
      (9, 160078328543346226334652529543360000);
      (10, 106939325995318430960254718194000000);
      (11, 47175336386511827194615961485017000)]
  | 24 | 25 => [(0, 40484004765315879520021592200986000);
      (1, 92121499837728447914421775953797000);
      (2, 138873510219787238463601776868870000);
      (3, 178145980761945738280046691996100000);
      (4, 207816047536888502312523219306050000);
      (5, 226283180262897238412090186039780000);
      (6, 232551553230873910194589515268840000);
      (7, 226283180262897238412090186039780000);
      (8, 207816047536888502312523219306050000);
      (9, 178145980761945738280046691996100000);
      (10, 138873510219787238463601776868870000);
      (11, 92121499837728447914421775953797000);
      (12, 40484004765315879520021592200986000)]
  | 26 | 27 => [(0, 35119460331751863031832876138192000);
      (1, 80158087159760209805633277062854000);
      (2, 121518570687903184689414809072480000);
      (3, 157203167158193534569601938623840000);
      (4, 185538397477937813741716590125160000);
      (5, 205198463721295603965924065661220000);
      (6, 215263853463157790195876443316260000);
      (7, 215263853463157790195876443316260000);
      (8, 205198463721295603965924065661220000);
      (9, 185538397477937813741716590125160000);
      (10, 157203167158193534569601938623840000);
      (11, 121518570687903184689414809072480000);
      (12, 80158087159760209805633277062854000);
      (13, 35119460331751863031832876138192000)]
  | 28 | 29 => [(0, 30753241996117268354628393577204000);
      (1, 70366047488108124709267416450667000);
      (2, 107159220467171935011869546685870000);
      (3, 139570677926154314447804794511030000);
      (4, 166269205816993933553200860481210000);
      (5, 186161000015562211026800561866420000);
      (6, 198431485327111576456118326443840000);
      (7, 202578241925561272880620199967520000);
      (8, 198431485327111576456118326443840000);
      (9, 186161000015562211026800561866420000);
      (10, 166269205816993933553200860481210000);
      (11, 139570677926154314447804794511030000);
      (12, 107159220467171935011869546685870000);
      (13, 70366047488108124709267416450667000);
      (14, 30753241996117268354628393577204000)]
  | 30 | 31 => [(0, 27152459411754094851780572456018000);
      (1, 62253523938647892862843836994378000);
      (2, 95158511682492784809925107602246000);
      (3, 124628971255533872052476282192020000);
      (4, 149595988816576732081501730547480000);
      (5, 169156519395002538189312079030360000);
      (6, 182603415044923588866763667969220000);
      (7, 189450610455068496285396723208280000);
      (8, 189450610455068496285396723208280000);
      (9, 182603415044923588866763667969220000);
      (10, 169156519395002538189312079030360000);
      (11, 149595988816576732081501730547480000);
      (12, 124628971255533872052476282192020000);
      (13, 95158511682492784809925107602246000);
      (14, 62253523938647892862843836994378000);
      (15, 27152459411754094851780572456018000)]
  | 32 | 33 => [(0, 24148302868547931960110026287565000);
      (1, 55459529373987201129440165358245000);
      (2, 85036148317179180883535370191062000);
      (3, 111883847193403971094788385626360000);
      (4, 135136368468525473286319981702350000);
      (5, 154045761076810288081431594801960000);
      (6, 168004102156450044509970663788320000);
      (7, 176562705366992646325270990113200000);
      (8, 179446470356206525458265644261890000);
      (9, 176562705366992646325270990113200000);
      (10, 168004102156450044509970663788320000);
      (11, 154045761076810288081431594801960000);
      (12, 135136368468525473286319981702350000);
      (13, 111883847193403971094788385626360000);
      (14, 85036148317179180883535370191062000);
      (15, 55459529373987201129440165358245000);
      (16, 24148302868547931960110026287565000)]
  | 34 | 35 => [(0, 21616013526483310313342710266452000);
      (1, 49714548894969796453334946202639000);
      (2, 76425730254889056529129677616637000);
      (3, 100942044106287165562813984924830000);
      (4, 122555206711478460184519126800200000);
      (5, 140642914670650651204731303751950000);
      (6, 154684675126265244925418003836370000);
      (7, 164276483745832722986053776465930000);
      (8, 169142382963143591840656470134990000);
      (9, 169142382963143591840656470134990000);
      (10, 164276483745832722986053776465930000);
      (11, 154684675126265244925418003836370000);
      (12, 140642914670650651204731303751950000);
      (13, 122555206711478460184519126800200000);
      (14, 100942044106287165562813984924830000);
      (15, 76425730254889056529129677616637000);
      (16, 49714548894969796453334946202639000);
      (17, 21616013526483310313342710266452000)]
  | 36 | 37 => [(0, 19461788229726477036312041464438000);
      (1, 44814226765699600332838157401994000);
      (2, 69044542737641226580708258006013000);
      (3, 91490021622449999464462094123840000);
      (4, 111566645547333994716023901681770000);
      (5, 128753962539336227675515784856880000);
      (6, 142606702173606611775746109441900000);
      (7, 152766042065859666778855400897660000);
      (8, 158968843393954347649956439465050000);
      (9, 161054449848783695979163625320920000);
      (10, 158968843393954347649956439465050000);
      (11, 152766042065859666778855400897660000);
      (12, 142606702173606611775746109441900000);
      (13, 128753962539336227675515784856880000);
      (14, 111566645547333994716023901681770000);
      (15, 91490021622449999464462094123840000);
      (16, 69044542737641226580708258006013000);
      (17, 44814226765699600332838157401994000);
      (18, 19461788229726477036312041464438000)]
  | 38 | 39 => [(0, 17614007139152118311861962351853000);
      (1, 40601429800386941331039952274932000);
      (2, 62672048334109063569506535187042000);
      (3, 83276741576704748724758143222046000);
      (4, 101930119817240435036750135480350000);
      (5, 118194531961518417312377377711380000);
      (6, 131688638449176626898494499748160000);
      (7, 142096109318382051329298325067160000);
      (8, 149172986472603746787828737001970000);
      (9, 152753387130725850698084331955100000);
      (10, 152753387130725850698084331955100000);
      (11, 149172986472603746787828737001970000);
      (12, 142096109318382051329298325067160000);
      (13, 131688638449176626898494499748160000);
      (14, 118194531961518417312377377711380000);
      (15, 101930119817240435036750135480350000);
      (16, 83276741576704748724758143222046000);
      (17, 62672048334109063569506535187042000);
      (18, 40601429800386941331039952274932000);
      (19, 17614007139152118311861962351853000)]
  | 40 | 41 => [(0, 16017228257774333324224616858471000);
      (1, 36953789770852493799950668299330000);
      (2, 57134425426857208283635826472448000);
      (3, 76100113628379302017051653300183000);
      (4, 93444423456033861553289741113932000);
      (5, 108797299167148377663474578070110000);
      (6, 121831416053728534195367177125730000);
      (7, 132268938633337461781052574496780000);
      (8, 139887394791073154722133423867580000);
      (9, 144524403989970059063827166553750000);
      (10, 146081133649690427191985147683370000);
      (11, 144524403989970059063827166553750000);
      (12, 139887394791073154722133423867580000);
      (13, 132268938633337461781052574496780000);
      (14, 121831416053728534195367177125730000);
      (15, 108797299167148377663474578070110000);
      (16, 93444423456033861553289741113932000);
      (17, 76100113628379302017051653300183000);
      (18, 57134425426857208283635826472448000);
      (19, 36953789770852493799950668299330000);
      (20, 16017228257774333324224616858471000)]
  | 42 | 43 => [(0, 14627995298272200684991098047185000);
      (1, 33774901584814154793302246865913000);
      (2, 52293335152683285940312051273211000);
      (3, 69796468424520488094961418930218000);
      (4, 85941606217067727414443681372703000);
      (5, 100414144442880964932078837830540000);
      (6, 112932296080539218393400607421780000);
      (7, 123252376810512424285560986154810000);
      (8, 131173504787062370732964992530310000);
      (9, 136541498346015171352573831231520000);
      (10, 139251872855631993375410248341810000);
      (11, 139251872855631993375410248341810000);
      (12, 136541498346015171352573831231520000);
      (13, 131173504787062370732964992530310000);
      (14, 123252376810512424285560986154810000);
      (15, 112932296080539218393400607421780000);
      (16, 100414144442880964932078837830540000);
      (17, 85941606217067727414443681372703000);
      (18, 69796468424520488094961418930218000);
      (19, 52293335152683285940312051273211000);
      (20, 33774901584814154793302246865913000);
      (21, 14627995298272200684991098047185000)]
  | 44 | 45 => [(0, 13411859487141772081309493458615000);
      (1, 30988005856979444310694219641885000);
      (2, 48037671731084668571641071632034000);
      (3, 64232421408525852127169615158911000);
      (4, 79281411776718954922892524742043000);
      (5, 92915766060035147477018617369765000);
      (6, 104892091464541410074086185014740000);
      (7, 114996640222411364941643512933960000);
      (8, 123049084306729530467578400672010000);
      (9, 128905722188082149978595339399790000);
      (10, 132462039404696617371642464703320000);
      (11, 133654572186106175351457110545840000);
      (12, 132462039404696617371642464703320000);
      (13, 128905722188082149978595339399790000);
      (14, 123049084306729530467578400672010000);
      (15, 114996640222411364941643512933960000);
      (16, 104892091464541410074086185014740000);
      (17, 92915766060035147477018617369765000);
      (18, 79281411776718954922892524742043000);
      (19, 64232421408525852127169615158911000);
      (20, 48037671731084668571641071632034000);
      (21, 30988005856979444310694219641885000);
      (22, 13411859487141772081309493458615000)]
  | 46 | 47 => [(0, 12341229799987199546805667070037000);
      (1, 28531388628933663181307815951878000);
      (2, 44277438817419806168602748211338000);
      (3, 59298584915436780746367758500109000);
      (4, 73346481411080305734033615253117000);
      (5, 86190161531953275917185202983743000);
      (6, 97618652104113888269880664464247000);
      (7, 107444270115965634782577342446610000);
      (8, 115505668053725601353344483906780000);
      (9, 121670472927803391204463153476260000);
      (10, 125837456346828296121375382511180000);
      (11, 127938195346752156974056165224700000);
      (12, 127938195346752156974056165224700000);
      (13, 125837456346828296121375382511180000);
      (14, 121670472927803391204463153476260000);
      (15, 115505668053725601353344483906780000);
      (16, 107444270115965634782577342446610000);
      (17, 97618652104113888269880664464247000);
      (18, 86190161531953275917185202983743000);
      (19, 73346481411080305734033615253117000);
      (20, 59298584915436780746367758500109000);
      (21, 44277438817419806168602748211338000);
      (22, 28531388628933663181307815951878000);
      (23, 12341229799987199546805667070037000)]
  | 48 | 49 => [(0, 11393798501026287947902964113235000);
      (1, 26354986615032137261901815295299000);
      (2, 40939156701306312655623487711646000);
      (3, 54904695975835191925936891540473000);
      (4, 68038333812356917207187185656708000);
      (5, 80140700335001018013234959669111000);
      (6, 91028261982963649811497220702892000);
      (7, 100535949067050644202206890392690000);
      (8, 108519624474263653116093957050120000);
      (9, 114858259145711648339325545869560000);
      (10, 119455763535784772228178126512900000);
      (11, 122242442990310041688959518945850000);
      (12, 123176053726715451203902873079050000);
      (13, 122242442990310041688959518945850000);
      (14, 119455763535784772228178126512900000);
      (15, 114858259145711648339325545869560000);
      (16, 108519624474263653116093957050120000);
      (17, 100535949067050644202206890392690000);
      (18, 91028261982963649811497220702892000);
      (19, 80140700335001018013234959669111000);
      (20, 68038333812356917207187185656708000);
      (21, 54904695975835191925936891540473000);
      (22, 40939156701306312655623487711646000);
      (23, 26354986615032137261901815295299000);
      (24, 11393798501026287947902964113235000)]
  | _ => []
  end.

