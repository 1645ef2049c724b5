(** src/universe.rs. *)

From Coq Require Import String List.
From Verif Require Import Base.
Import ListNotations.
Local Open Scope string_scope.

(** src/universe.rs 127-180 *)
Definition DOOM2_TEXTURES : list bytes := map bs [
  "AASHITTY"; "ASHWALL2"; "ASHWALL3"; "ASHWALL4"; "ASHWALL6"; "ASHWALL7"; "BFALL1"; "BFALL2"; "BFALL3";
  "BFALL4"; "BIGBRIK1"; "BIGBRIK2"; "BIGBRIK3"; "BIGDOOR1"; "BIGDOOR2"; "BIGDOOR3"; "BIGDOOR4"; "BIGDOOR5";
  "BIGDOOR6"; "BIGDOOR7"; "BLAKWAL1"; "BLAKWAL2"; "BLODRIP1"; "BLODRIP2"; "BLODRIP3"; "BLODRIP4"; "BRICK1";
  "BRICK10"; "BRICK11"; "BRICK12"; "BRICK2"; "BRICK3"; "BRICK4"; "BRICK5"; "BRICK6"; "BRICK7"; "BRICK8";
  "BRICK9"; "BRICKLIT"; "BRNPOIS"; "BRNSMAL1"; "BRNSMAL2"; "BRNSMALC"; "BRNSMALL"; "BRNSMALR"; "BRONZE1";
  "BRONZE2"; "BRONZE3"; "BRONZE4"; "BROVINE2"; "BROWN1"; "BROWN144"; "BROWN96"; "BROWNGRN"; "BROWNHUG";
  "BROWNPIP"; "BRWINDOW"; "BSTONE1"; "BSTONE2"; "BSTONE3"; "CEMENT1"; "CEMENT2"; "CEMENT3"; "CEMENT4";
  "CEMENT5"; "CEMENT6"; "CEMENT7"; "CEMENT8"; "CEMENT9"; "COMPBLUE"; "COMPSPAN"; "COMPSTA1"; "COMPSTA2";
  "COMPTALL"; "COMPWERD"; "CRACKLE2"; "CRACKLE4"; "CRATE1"; "CRATE2"; "CRATE3"; "CRATELIT"; "CRATINY";
  "CRATWIDE"; "DBRAIN1"; "DBRAIN2"; "DBRAIN3"; "DBRAIN4"; "DOOR1"; "DOOR3"; "DOORBLU"; "DOORBLU2"; "DOORRED";
  "DOORRED2"; "DOORSTOP"; "DOORTRAK"; "DOORYEL"; "DOORYEL2"; "EXITDOOR"; "EXITSIGN"; "EXITSTON"; "FIREBLU1";
  "FIREBLU2"; "FIRELAV2"; "FIRELAV3"; "FIRELAVA"; "FIREMAG1"; "FIREMAG2"; "FIREMAG3"; "FIREWALA"; "FIREWALB";
  "FIREWALL"; "GRAY1"; "GRAY2"; "GRAY4"; "GRAY5"; "GRAY7"; "GRAYBIG"; "GRAYPOIS"; "GRAYTALL"; "GRAYVINE";
  "GSTFONT1"; "GSTFONT2"; "GSTFONT3"; "GSTGARG"; "GSTLION"; "GSTONE1"; "GSTONE2"; "GSTSATYR"; "GSTVINE1";
  "GSTVINE2"; "ICKWALL1"; "ICKWALL2"; "ICKWALL3"; "ICKWALL4"; "ICKWALL5"; "ICKWALL7"; "LITE3"; "LITE5";
  "LITEBLU1"; "LITEBLU4"; "MARBFAC2"; "MARBFAC3"; "MARBFAC4"; "MARBFACE"; "MARBGRAY"; "MARBLE1"; "MARBLE2";
  "MARBLE3"; "MARBLOD1"; "METAL"; "METAL1"; "METAL2"; "METAL3"; "METAL4"; "METAL5"; "METAL6"; "METAL7";
  "MIDBARS1"; "MIDBARS3"; "MIDBRN1"; "MIDBRONZ"; "MIDGRATE"; "MIDSPACE"; "MODWALL1"; "MODWALL2"; "MODWALL3";
  "MODWALL4"; "NUKE24"; "NUKEDGE1"; "NUKEPOIS"; "PANBLACK"; "PANBLUE"; "PANBOOK"; "PANBORD1"; "PANBORD2";
  "PANCASE1"; "PANCASE2"; "PANEL1"; "PANEL2"; "PANEL3"; "PANEL4"; "PANEL5"; "PANEL6"; "PANEL7"; "PANEL8";
  "PANEL9"; "PANRED"; "PIPE1"; "PIPE2"; "PIPE4"; "PIPE6"; "PIPES"; "PIPEWAL1"; "PIPEWAL2"; "PLAT1";
  "REDWALL"; "ROCK1"; "ROCK2"; "ROCK3"; "ROCK4"; "ROCK5"; "ROCKRED1"; "ROCKRED2"; "ROCKRED3"; "SFALL1";
  "SFALL2"; "SFALL3"; "SFALL4"; "SHAWN1"; "SHAWN2"; "SHAWN3"; "SILVER1"; "SILVER2"; "SILVER3"; "SK_LEFT";
  "SK_RIGHT"; "SKIN2"; "SKINCUT"; "SKINEDGE"; "SKINFACE"; "SKINLOW"; "SKINMET1"; "SKINMET2"; "SKINSCAB";
  "SKINSYMB"; "SKSNAKE1"; "SKSNAKE2"; "SKSPINE1"; "SKSPINE2"; "SKY1"; "SKY2"; "SKY3"; "SLADPOIS"; "SLADSKUL";
  "SLADWALL"; "SLOPPY1"; "SLOPPY2"; "SP_DUDE1"; "SP_DUDE2"; "SP_DUDE4"; "SP_DUDE5"; "SP_DUDE7"; "SP_DUDE8";
  "SP_FACE1"; "SP_FACE2"; "SP_HOT1"; "SP_ROCK1"; "SPACEW2"; "SPACEW3"; "SPACEW4"; "SPCDOOR1"; "SPCDOOR2";
  "SPCDOOR3"; "SPCDOOR4"; "STARBR2"; "STARG1"; "STARG2"; "STARG3"; "STARGR1"; "STARGR2"; "STARTAN2";
  "STARTAN3"; "STEP1"; "STEP2"; "STEP3"; "STEP4"; "STEP5"; "STEP6"; "STEPLAD1"; "STEPTOP"; "STONE"; "STONE2";
  "STONE3"; "STONE4"; "STONE5"; "STONE6"; "STONE7"; "STUCCO"; "STUCCO1"; "STUCCO2"; "STUCCO3"; "SUPPORT2";
  "SUPPORT3"; "SW1BLUE"; "SW1BRCOM"; "SW1BRIK"; "SW1BRN1"; "SW1BRN2"; "SW1BRNGN"; "SW1BROWN"; "SW1CMT";
  "SW1COMM"; "SW1COMP"; "SW1DIRT"; "SW1EXIT"; "SW1GARG"; "SW1GRAY"; "SW1GRAY1"; "SW1GSTON"; "SW1HOT";
  "SW1LION"; "SW1MARB"; "SW1MET2"; "SW1METAL"; "SW1MOD1"; "SW1PANEL"; "SW1PIPE"; "SW1ROCK"; "SW1SATYR";
  "SW1SKIN"; "SW1SKULL"; "SW1SLAD"; "SW1STARG"; "SW1STON1"; "SW1STON2"; "SW1STON6"; "SW1STONE"; "SW1STRTN";
  "SW1TEK"; "SW1VINE"; "SW1WDMET"; "SW1WOOD"; "SW1ZIM"; "SW2BLUE"; "SW2BRCOM"; "SW2BRIK"; "SW2BRN1";
  "SW2BRN2"; "SW2BRNGN"; "SW2BROWN"; "SW2CMT"; "SW2COMM"; "SW2COMP"; "SW2DIRT"; "SW2EXIT"; "SW2GARG";
  "SW2GRAY"; "SW2GRAY1"; "SW2GSTON"; "SW2HOT"; "SW2LION"; "SW2MARB"; "SW2MET2"; "SW2METAL"; "SW2MOD1";
  "SW2PANEL"; "SW2PIPE"; "SW2ROCK"; "SW2SATYR"; "SW2SKIN"; "SW2SKULL"; "SW2SLAD"; "SW2STARG"; "SW2STON1";
  "SW2STON2"; "SW2STON6"; "SW2STONE"; "SW2STRTN"; "SW2TEK"; "SW2VINE"; "SW2WDMET"; "SW2WOOD"; "SW2ZIM";
  "TANROCK2"; "TANROCK3"; "TANROCK4"; "TANROCK5"; "TANROCK7"; "TANROCK8"; "TEKBRON1"; "TEKBRON2"; "TEKGREN1";
  "TEKGREN2"; "TEKGREN3"; "TEKGREN4"; "TEKGREN5"; "TEKLITE"; "TEKLITE2"; "TEKWALL1"; "TEKWALL4"; "TEKWALL6";
  "WOOD1"; "WOOD10"; "WOOD12"; "WOOD3"; "WOOD4"; "WOOD5"; "WOOD6"; "WOOD7"; "WOOD8"; "WOOD9"; "WOODGARG";
  "WOODMET1"; "WOODMET2"; "WOODMET3"; "WOODMET4"; "WOODVERT"; "ZDOORB1"; "ZDOORF1"; "ZELDOOR"; "ZIMMER1";
  "ZIMMER2"; "ZIMMER3"; "ZIMMER4"; "ZIMMER5"; "ZIMMER7"; "ZIMMER8"; "ZZWOLF1"; "ZZWOLF10"; "ZZWOLF11";
  "ZZWOLF12"; "ZZWOLF13"; "ZZWOLF2"; "ZZWOLF3"; "ZZWOLF4"; "ZZWOLF5"; "ZZWOLF6"; "ZZWOLF7"; "ZZWOLF9";
  "ZZZFACE1"; "ZZZFACE2"; "ZZZFACE3"; "ZZZFACE4"; "ZZZFACE5"; "ZZZFACE6"; "ZZZFACE7"; "ZZZFACE8"; "ZZZFACE9"].
