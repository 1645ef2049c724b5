(** The actor table: src/universe.rs 11-57 (types), src/vanilladoom.rs 29-54 (flag
    constants) and 56-3893 ([DOOM2_ACTORS]); src/universe.rs 60-70
    ([lookup_thing_type]). *)

From Coq Require Import String List ZArith.
Import ListNotations.
Local Open Scope Z_scope.
Local Open Scope string_scope.

(** src/universe.rs 11-25 *)
Inductive thing_category :=
| PlayerStart | Monster | Ammo | Weapon | HealthArmor | Powerup | Key | Decoration | Miscellaneous.

(** src/universe.rs 27-56 *)
Record actor := mk_actor {
  a_class : string; a_category : thing_category; a_doomednum : option Z;
  a_spawnhealth : Z; a_seesound : option string; a_reactiontime : Z; a_attacksound : option string;
  a_painchance : Z; a_painsound : option string; a_deathsound : option string;
  a_speed : Z; a_radius : Z; a_height : Z; a_mass : Z; a_damage : Z;
  a_activesound : option string; a_flags : Z; a_flags2 : Z }.

(** src/vanilladoom.rs 56-3893: [DOOM2_ACTORS]. *)
Definition doom2_actors : list actor := [
  mk_actor "DoomPlayer" Miscellaneous None 100 None 0 None 255 (Some "sfx_plpain") (Some "sfx_pldeth") 0 16 56 100 0 None 33557510 0;
  mk_actor "ZombieMan" Monster (Some 3004) 20 (Some "sfx_posit1") 8 (Some "sfx_pistol") 200 (Some "sfx_popain") (Some "sfx_podth1") 8 20 56 100 0 (Some "sfx_posact") 4194310 0;
  mk_actor "ShotgunGuy" Monster (Some 9) 30 (Some "sfx_posit2") 8 None 170 (Some "sfx_popain") (Some "sfx_podth2") 8 20 56 100 0 (Some "sfx_posact") 4194310 0;
  mk_actor "Archvile" Monster (Some 64) 700 (Some "sfx_vilsit") 8 None 10 (Some "sfx_vipain") (Some "sfx_vildth") 15 20 56 500 0 (Some "sfx_vilact") 4194310 0;
  mk_actor "ArchvileFire" Miscellaneous None 1000 None 8 None 0 None None 0 20 16 100 0 None 528 0;
  mk_actor "Revenant" Monster (Some 66) 300 (Some "sfx_skesit") 8 None 100 (Some "sfx_popain") (Some "sfx_skedth") 10 20 56 500 0 (Some "sfx_skeact") 4194310 0;
  mk_actor "RevenantTracer" Miscellaneous None 1000 (Some "sfx_skeatk") 8 None 0 None (Some "sfx_barexp") 10 11 8 100 10 None 67088 0;
  mk_actor "RevenantTracerSmoke" Miscellaneous None 1000 None 8 None 0 None None 0 20 16 100 0 None 528 0;
  mk_actor "Mancubus" Monster (Some 67) 600 (Some "sfx_mansit") 8 None 80 (Some "sfx_mnpain") (Some "sfx_mandth") 8 48 64 1000 0 (Some "sfx_posact") 4194310 0;
  mk_actor "FatShot" Miscellaneous None 1000 (Some "sfx_firsht") 8 None 0 None (Some "sfx_firxpl") 20 6 8 100 8 None 67088 0;
  mk_actor "ChaingunGuy" Monster (Some 65) 70 (Some "sfx_posit2") 8 None 170 (Some "sfx_popain") (Some "sfx_podth2") 8 20 56 100 0 (Some "sfx_posact") 4194310 0;
  mk_actor "DoomImp" Monster (Some 3001) 60 (Some "sfx_bgsit1") 8 None 200 (Some "sfx_popain") (Some "sfx_bgdth1") 8 20 56 100 0 (Some "sfx_bgact") 4194310 0;
  mk_actor "Demon" Monster (Some 3002) 150 (Some "sfx_sgtsit") 8 (Some "sfx_sgtatk") 180 (Some "sfx_dmpain") (Some "sfx_sgtdth") 10 30 56 400 0 (Some "sfx_dmact") 4194310 0;
  mk_actor "Spectre" Monster (Some 58) 150 (Some "sfx_sgtsit") 8 (Some "sfx_sgtatk") 180 (Some "sfx_dmpain") (Some "sfx_sgtdth") 10 30 56 400 0 (Some "sfx_dmact") 4456454 0;
  mk_actor "Cacodemon" Monster (Some 3005) 400 (Some "sfx_cacsit") 8 None 128 (Some "sfx_dmpain") (Some "sfx_cacdth") 8 31 56 400 0 (Some "sfx_dmact") 4211206 0;
  mk_actor "BaronOfHell" Monster (Some 3003) 1000 (Some "sfx_brssit") 8 None 50 (Some "sfx_dmpain") (Some "sfx_brsdth") 8 24 64 1000 0 (Some "sfx_dmact") 4194310 0;
  mk_actor "BaronBall" Miscellaneous None 1000 (Some "sfx_firsht") 8 None 0 None (Some "sfx_firxpl") 15 6 8 100 8 None 67088 0;
  mk_actor "HellKnight" Monster (Some 69) 500 (Some "sfx_kntsit") 8 None 50 (Some "sfx_dmpain") (Some "sfx_kntdth") 8 24 64 1000 0 (Some "sfx_dmact") 4194310 0;
  mk_actor "LostSoul" Monster (Some 3006) 100 None 8 (Some "sfx_sklatk") 256 (Some "sfx_dmpain") (Some "sfx_firxpl") 8 16 56 50 3 (Some "sfx_dmact") 16902 0;
  mk_actor "SpiderMastermind" Monster (Some 7) 3000 (Some "sfx_spisit") 8 (Some "sfx_shotgn") 40 (Some "sfx_dmpain") (Some "sfx_spidth") 12 128 100 1000 0 (Some "sfx_dmact") 4194310 0;
  mk_actor "Arachnotron" Monster (Some 68) 500 (Some "sfx_bspsit") 8 None 128 (Some "sfx_dmpain") (Some "sfx_bspdth") 12 64 64 600 0 (Some "sfx_bspact") 4194310 0;
  mk_actor "Cyberdemon" Monster (Some 16) 4000 (Some "sfx_cybsit") 8 None 20 (Some "sfx_dmpain") (Some "sfx_cybdth") 16 40 110 1000 0 (Some "sfx_dmact") 4194310 0;
  mk_actor "PainElemental" Monster (Some 71) 400 (Some "sfx_pesit") 8 None 128 (Some "sfx_pepain") (Some "sfx_pedth") 8 31 56 400 0 (Some "sfx_dmact") 4211206 0;
  mk_actor "WolfensteinSS" Monster (Some 84) 50 (Some "sfx_sssit") 8 None 170 (Some "sfx_popain") (Some "sfx_ssdth") 8 20 56 100 0 (Some "sfx_posact") 4194310 0;
  mk_actor "CommanderKeen" Monster (Some 72) 100 None 8 None 256 (Some "sfx_keenpn") (Some "sfx_keendt") 0 16 72 10000000 0 None 4195078 0;
  mk_actor "BossBrain" Monster (Some 88) 250 None 8 None 255 (Some "sfx_bospn") (Some "sfx_bosdth") 0 16 16 10000000 0 None 6 0;
  mk_actor "BossEye" Miscellaneous (Some 89) 1000 None 8 None 0 None None 0 20 32 100 0 None 24 0;
  mk_actor "BossTarget" Miscellaneous (Some 87) 1000 None 8 None 0 None None 0 20 32 100 0 None 24 0;
  mk_actor "SpawnShot" Miscellaneous None 1000 (Some "sfx_bospit") 8 None 0 None (Some "sfx_firxpl") 10 6 32 100 3 None 71184 0;
  mk_actor "SpawnFire" Miscellaneous None 1000 None 8 None 0 None None 0 20 16 100 0 None 528 0;
  mk_actor "ExplosiveBarrel" Miscellaneous (Some 2035) 20 None 8 None 0 None (Some "sfx_barexp") 0 10 42 100 0 None 524294 0;
  mk_actor "DoomImpBall" Miscellaneous None 1000 (Some "sfx_firsht") 8 None 0 None (Some "sfx_firxpl") 10 6 8 100 3 None 67088 0;
  mk_actor "CacodemonBall" Miscellaneous None 1000 (Some "sfx_firsht") 8 None 0 None (Some "sfx_firxpl") 10 6 8 100 5 None 67088 0;
  mk_actor "Rocket" Miscellaneous None 1000 (Some "sfx_rlaunc") 8 None 0 None (Some "sfx_barexp") 20 11 8 100 20 None 67088 0;
  mk_actor "PlasmaBall" Miscellaneous None 1000 (Some "sfx_plasma") 8 None 0 None (Some "sfx_firxpl") 25 13 8 100 5 None 67088 0;
  mk_actor "BFGBall" Miscellaneous None 1000 None 8 None 0 None (Some "sfx_rxplod") 25 13 8 100 100 None 67088 0;
  mk_actor "ArachnotronPlasma" Miscellaneous None 1000 (Some "sfx_plasma") 8 None 0 None (Some "sfx_firxpl") 25 13 8 100 5 None 67088 0;
  mk_actor "BulletPuff" Miscellaneous None 1000 None 8 None 0 None None 0 20 16 100 0 None 528 0;
  mk_actor "Blood" Miscellaneous None 1000 None 8 None 0 None None 0 20 16 100 0 None 16 0;
  mk_actor "TeleportFog" Miscellaneous None 1000 None 8 None 0 None None 0 20 16 100 0 None 528 0;
  mk_actor "ItemFog" Miscellaneous None 1000 None 8 None 0 None None 0 20 16 100 0 None 528 0;
  mk_actor "TeleportDest" Miscellaneous (Some 14) 1000 None 8 None 0 None None 0 20 16 100 0 None 24 0;
  mk_actor "BFGExtra" Miscellaneous None 1000 None 8 None 0 None None 0 20 16 100 0 None 528 0;
  mk_actor "GreenArmor" HealthArmor (Some 2018) 1000 None 8 None 0 None None 0 20 16 100 0 None 1 0;
  mk_actor "BlueArmor" HealthArmor (Some 2019) 1000 None 8 None 0 None None 0 20 16 100 0 None 1 0;
  mk_actor "HealthBonus" HealthArmor (Some 2014) 1000 None 8 None 0 None None 0 20 16 100 0 None 8388609 0;
  mk_actor "ArmorBonus" HealthArmor (Some 2015) 1000 None 8 None 0 None None 0 20 16 100 0 None 8388609 0;
  mk_actor "BlueCard" Key (Some 5) 1000 None 8 None 0 None None 0 20 16 100 0 None 33554433 0;
  mk_actor "RedCard" Key (Some 13) 1000 None 8 None 0 None None 0 20 16 100 0 None 33554433 0;
  mk_actor "YellowCard" Key (Some 6) 1000 None 8 None 0 None None 0 20 16 100 0 None 33554433 0;
  mk_actor "YellowSkull" Key (Some 39) 1000 None 8 None 0 None None 0 20 16 100 0 None 33554433 0;
  mk_actor "RedSkull" Key (Some 38) 1000 None 8 None 0 None None 0 20 16 100 0 None 33554433 0;
  mk_actor "BlueSkull" Key (Some 40) 1000 None 8 None 0 None None 0 20 16 100 0 None 33554433 0;
  mk_actor "Stimpack" HealthArmor (Some 2011) 1000 None 8 None 0 None None 0 20 16 100 0 None 1 0;
  mk_actor "Medikit" HealthArmor (Some 2012) 1000 None 8 None 0 None None 0 20 16 100 0 None 1 0;
  mk_actor "SoulSphere" HealthArmor (Some 2013) 1000 None 8 None 0 None None 0 20 16 100 0 None 8388609 0;
  mk_actor "InvulnerabilitySphere" Powerup (Some 2022) 1000 None 8 None 0 None None 0 20 16 100 0 None 8388609 0;
  mk_actor "Berserk" Powerup (Some 2023) 1000 None 8 None 0 None None 0 20 16 100 0 None 8388609 0;
  mk_actor "BlurSphere" Powerup (Some 2024) 1000 None 8 None 0 None None 0 20 16 100 0 None 8388609 0;
  mk_actor "RadSuit" Powerup (Some 2025) 1000 None 8 None 0 None None 0 20 16 100 0 None 1 0;
  mk_actor "Allmap" Powerup (Some 2026) 1000 None 8 None 0 None None 0 20 16 100 0 None 8388609 0;
  mk_actor "Infrared" Powerup (Some 2045) 1000 None 8 None 0 None None 0 20 16 100 0 None 8388609 0;
  mk_actor "Megasphere" HealthArmor (Some 83) 1000 None 8 None 0 None None 0 20 16 100 0 None 8388609 0;
  mk_actor "Clip" Ammo (Some 2007) 1000 None 8 None 0 None None 0 20 16 100 0 None 1 0;
  mk_actor "ClipBox" Ammo (Some 2048) 1000 None 8 None 0 None None 0 20 16 100 0 None 1 0;
  mk_actor "RocketAmmo" Ammo (Some 2010) 1000 None 8 None 0 None None 0 20 16 100 0 None 1 0;
  mk_actor "RocketBox" Ammo (Some 2046) 1000 None 8 None 0 None None 0 20 16 100 0 None 1 0;
  mk_actor "Cell" Ammo (Some 2047) 1000 None 8 None 0 None None 0 20 16 100 0 None 1 0;
  mk_actor "CellPack" Ammo (Some 17) 1000 None 8 None 0 None None 0 20 16 100 0 None 1 0;
  mk_actor "Shell" Ammo (Some 2008) 1000 None 8 None 0 None None 0 20 16 100 0 None 1 0;
  mk_actor "ShellBox" Ammo (Some 2049) 1000 None 8 None 0 None None 0 20 16 100 0 None 1 0;
  mk_actor "Backpack" Miscellaneous (Some 8) 1000 None 8 None 0 None None 0 20 16 100 0 None 1 0;
  mk_actor "BFG9000" Weapon (Some 2006) 1000 None 8 None 0 None None 0 20 16 100 0 None 1 0;
  mk_actor "Chaingun" Weapon (Some 2002) 1000 None 8 None 0 None None 0 20 16 100 0 None 1 0;
  mk_actor "Chainsaw" Weapon (Some 2005) 1000 None 8 None 0 None None 0 20 16 100 0 None 1 0;
  mk_actor "RocketLauncher" Weapon (Some 2003) 1000 None 8 None 0 None None 0 20 16 100 0 None 1 0;
  mk_actor "PlasmaRifle" Weapon (Some 2004) 1000 None 8 None 0 None None 0 20 16 100 0 None 1 0;
  mk_actor "Shotgun" Weapon (Some 2001) 1000 None 8 None 0 None None 0 20 16 100 0 None 1 0;
  mk_actor "SuperShotgun" Weapon (Some 82) 1000 None 8 None 0 None None 0 20 16 100 0 None 1 0;
  mk_actor "TechLamp" Miscellaneous (Some 85) 1000 None 8 None 0 None None 0 16 16 100 0 None 2 0;
  mk_actor "TechLamp2" Miscellaneous (Some 86) 1000 None 8 None 0 None None 0 16 16 100 0 None 2 0;
  mk_actor "Column" Miscellaneous (Some 2028) 1000 None 8 None 0 None None 0 16 16 100 0 None 2 0;
  mk_actor "TallGreenColumn" Miscellaneous (Some 30) 1000 None 8 None 0 None None 0 16 16 100 0 None 2 0;
  mk_actor "ShortGreenColumn" Miscellaneous (Some 31) 1000 None 8 None 0 None None 0 16 16 100 0 None 2 0;
  mk_actor "TallRedColumn" Miscellaneous (Some 32) 1000 None 8 None 0 None None 0 16 16 100 0 None 2 0;
  mk_actor "ShortRedColumn" Miscellaneous (Some 33) 1000 None 8 None 0 None None 0 16 16 100 0 None 2 0;
  mk_actor "SkullColumn" Miscellaneous (Some 37) 1000 None 8 None 0 None None 0 16 16 100 0 None 2 0;
  mk_actor "HeartColumn" Miscellaneous (Some 36) 1000 None 8 None 0 None None 0 16 16 100 0 None 2 0;
  mk_actor "EvilEye" Miscellaneous (Some 41) 1000 None 8 None 0 None None 0 16 16 100 0 None 2 0;
  mk_actor "FloatingSkull" Miscellaneous (Some 42) 1000 None 8 None 0 None None 0 16 16 100 0 None 2 0;
  mk_actor "TorchTree" Miscellaneous (Some 43) 1000 None 8 None 0 None None 0 16 16 100 0 None 2 0;
  mk_actor "BlueTorch" Miscellaneous (Some 44) 1000 None 8 None 0 None None 0 16 16 100 0 None 2 0;
  mk_actor "GreenTorch" Miscellaneous (Some 45) 1000 None 8 None 0 None None 0 16 16 100 0 None 2 0;
  mk_actor "RedTorch" Miscellaneous (Some 46) 1000 None 8 None 0 None None 0 16 16 100 0 None 2 0;
  mk_actor "ShortBlueTorch" Miscellaneous (Some 55) 1000 None 8 None 0 None None 0 16 16 100 0 None 2 0;
  mk_actor "ShortGreenTorch" Miscellaneous (Some 56) 1000 None 8 None 0 None None 0 16 16 100 0 None 2 0;
  mk_actor "ShortRedTorch" Miscellaneous (Some 57) 1000 None 8 None 0 None None 0 16 16 100 0 None 2 0;
  mk_actor "Stalagtite" Miscellaneous (Some 47) 1000 None 8 None 0 None None 0 16 16 100 0 None 2 0;
  mk_actor "TechPillar" Miscellaneous (Some 48) 1000 None 8 None 0 None None 0 16 16 100 0 None 2 0;
  mk_actor "Candlestick" Miscellaneous (Some 34) 1000 None 8 None 0 None None 0 20 16 100 0 None 0 0;
  mk_actor "Candelabra" Miscellaneous (Some 35) 1000 None 8 None 0 None None 0 16 16 100 0 None 2 0;
  mk_actor "BloodyTwitch" Miscellaneous (Some 49) 1000 None 8 None 0 None None 0 16 68 100 0 None 770 0;
  mk_actor "Meat2" Miscellaneous (Some 50) 1000 None 8 None 0 None None 0 16 84 100 0 None 770 0;
  mk_actor "Meat3" Miscellaneous (Some 51) 1000 None 8 None 0 None None 0 16 84 100 0 None 770 0;
  mk_actor "Meat4" Miscellaneous (Some 52) 1000 None 8 None 0 None None 0 16 68 100 0 None 770 0;
  mk_actor "Meat5" Miscellaneous (Some 53) 1000 None 8 None 0 None None 0 16 52 100 0 None 770 0;
  mk_actor "NonsolidMeat2" Miscellaneous (Some 59) 1000 None 8 None 0 None None 0 20 84 100 0 None 768 0;
  mk_actor "NonsolidMeat3" Miscellaneous (Some 60) 1000 None 8 None 0 None None 0 20 68 100 0 None 768 0;
  mk_actor "NonsolidMeat4" Miscellaneous (Some 61) 1000 None 8 None 0 None None 0 20 52 100 0 None 768 0;
  mk_actor "NonsolidMeat5" Miscellaneous (Some 62) 1000 None 8 None 0 None None 0 20 52 100 0 None 768 0;
  mk_actor "NonsolidTwitch" Miscellaneous (Some 63) 1000 None 8 None 0 None None 0 20 68 100 0 None 768 0;
  mk_actor "DeadCacodemon" Miscellaneous (Some 22) 1000 None 8 None 0 None None 0 20 16 100 0 None 0 0;
  mk_actor "DeadMarine" Miscellaneous (Some 15) 1000 None 8 None 0 None None 0 20 16 100 0 None 0 0;
  mk_actor "DeadZombieMan" Miscellaneous (Some 18) 1000 None 8 None 0 None None 0 20 16 100 0 None 0 0;
  mk_actor "DeadDemon" Miscellaneous (Some 21) 1000 None 8 None 0 None None 0 20 16 100 0 None 0 0;
  mk_actor "DeadLostSoul" Miscellaneous (Some 23) 1000 None 8 None 0 None None 0 20 16 100 0 None 0 0;
  mk_actor "DeadDoomImp" Miscellaneous (Some 20) 1000 None 8 None 0 None None 0 20 16 100 0 None 0 0;
  mk_actor "DeadShotgunGuy" Miscellaneous (Some 19) 1000 None 8 None 0 None None 0 20 16 100 0 None 0 0;
  mk_actor "GibbedMarine" Miscellaneous (Some 10) 1000 None 8 None 0 None None 0 20 16 100 0 None 0 0;
  mk_actor "GibbedMarineExtra" Miscellaneous (Some 12) 1000 None 8 None 0 None None 0 20 16 100 0 None 0 0;
  mk_actor "HeadsOnAStick" Miscellaneous (Some 28) 1000 None 8 None 0 None None 0 16 16 100 0 None 2 0;
  mk_actor "Gibs" Miscellaneous (Some 24) 1000 None 8 None 0 None None 0 20 16 100 0 None 0 0;
  mk_actor "HeadOnAStick" Miscellaneous (Some 27) 1000 None 8 None 0 None None 0 16 16 100 0 None 2 0;
  mk_actor "HeadCandles" Miscellaneous (Some 29) 1000 None 8 None 0 None None 0 16 16 100 0 None 2 0;
  mk_actor "DeadStick" Miscellaneous (Some 25) 1000 None 8 None 0 None None 0 16 16 100 0 None 2 0;
  mk_actor "LiveStick" Miscellaneous (Some 26) 1000 None 8 None 0 None None 0 16 16 100 0 None 2 0;
  mk_actor "BigTree" Miscellaneous (Some 54) 1000 None 8 None 0 None None 0 32 16 100 0 None 2 0;
  mk_actor "BurningBarrel" Miscellaneous (Some 70) 1000 None 8 None 0 None None 0 16 16 100 0 None 2 0;
  mk_actor "HangNoGuts" Miscellaneous (Some 73) 1000 None 8 None 0 None None 0 16 88 100 0 None 770 0;
  mk_actor "HangBNoBrain" Miscellaneous (Some 74) 1000 None 8 None 0 None None 0 16 88 100 0 None 770 0;
  mk_actor "HangTLookingDown" Miscellaneous (Some 75) 1000 None 8 None 0 None None 0 16 64 100 0 None 770 0;
  mk_actor "HangTSkull" Miscellaneous (Some 76) 1000 None 8 None 0 None None 0 16 64 100 0 None 770 0;
  mk_actor "HangTLookingUp" Miscellaneous (Some 77) 1000 None 8 None 0 None None 0 16 64 100 0 None 770 0;
  mk_actor "HangTNoBrain" Miscellaneous (Some 78) 1000 None 8 None 0 None None 0 16 64 100 0 None 770 0;
  mk_actor "ColonGibs" Miscellaneous (Some 79) 1000 None 8 None 0 None None 0 20 16 100 0 None 16 0;
  mk_actor "SmallBloodPool" Miscellaneous (Some 80) 1000 None 8 None 0 None None 0 20 16 100 0 None 16 0;
  mk_actor "BrainStem" Miscellaneous (Some 81) 1000 None 8 None 0 None None 0 20 16 100 0 None 16 0
].

(** src/universe.rs 60-70 *)
Definition lookup_thing_type (doomednum : Z) : option actor :=
  find (fun a => match a_doomednum a with Some den => (den =? doomednum)%Z | None => false end) doom2_actors.
