-Q theories Verif
theories/Prelim.v
theories/CSystem.v
theories/CSystemSpec.v
theories/CSystemProofs.v
theories/CSystemDeriv.v
theories/PropsCSystem.v
theories/CSystemArray.v
theories/CSystemArrayProofs.v
theories/PropsArray.v
theories/Cont.v
theories/Num.v
theories/Bem.v
theories/BemGeomSpec.v
theories/BemGeomProofs.v
theories/PropsBemGeom.v
theories/IndSpec.v
theories/IndProofs.v
theories/IndSmooth.v
theories/FlProofs.v
theories/PropsInd.v
theories/BemDiff.v
theories/DeriveLib.v
theories/DiffSpec.v
theories/IndDvProofs.v
theories/CurvDvProofs.v
theories/AdjointProofs.v
theories/PropsDiff.v
theories/BladeDiff.v
theories/Interp.v
theories/InterpSpec.v
theories/InterpProofs.v
theories/Blade.v
theories/BladeSpec.v
theories/StationProofs.v
theories/StationWitness.v
theories/StationLoads.v
theories/StationExist.v
theories/PropsStation.v
theories/BladeProofs.v
theories/SectorProofs.v
theories/ConstructProofs.v
theories/SectorWitness.v
theories/InverseProofs.v
theories/PropsBlade.v
theories/LinProofs.v
theories/BladeDiffSpec.v
theories/StationDvProofs.v
theories/BladeDvProofs.v
theories/EvalDvProofs.v
theories/BladeDvExample.v
theories/BladeDvRefute.v
theories/PropsBladeDiff.v
theories/Polar.v
theories/PolarSpec.v
theories/PolarProofs.v
theories/PropsPolar.v
theories/PolarExt.v
theories/PolarExtProofs.v
theories/PolarCmProofs.v
theories/PolarExtFacts.v
theories/PropsPolarExt.v
theories/MomentSpec.v
theories/MomentProofs.v
theories/PropsMoment.v
theories/TwistOutSpec.v
theories/TwistOutProofs.v
theories/PropsTwistOut.v
theories/AeroDyn.v
theories/AeroDynSpec.v
theories/AeroDynProofs.v
theories/UnsteadyProofs.v
theories/AeroDynExample.v
theories/PropsAeroDyn.v
theories/Component.v
theories/ComponentSpec.v
theories/ComponentProofs.v
theories/ComponentRho.v
theories/ExactRotor.v
theories/ComponentWitness.v
theories/TwistProofs.v
theories/TwistWitness.v
theories/PropsComponent.v
theories/CCAirfoil.v
theories/CCAirfoilSpec.v
theories/CCAirfoilProofs.v
theories/CCUnsteadyProofs.v
theories/CCAirfoilExample.v
theories/CCFitSpec.v
theories/CCFitProofs.v
theories/PropsCCAirfoil.v
theories/CCFitExample.v
theories/PropsCCFit.v
theories/SimilaritySpec.v
theories/SimilarityProofs.v
theories/SymmetryProofs.v
theories/SymmetryWitness.v
theories/PropsSimilarity.v
theories/ComponentSetup.v
theories/SetupSpec.v
theories/SetupProofs.v
theories/PropsSetup.v
theories/ParkedSpec.v
theories/ParkedProofs.v
theories/ParkedWitness.v
theories/PropsParked.v
theories/PlacementSpec.v
theories/PlacementProofs.v
theories/PlacementWitness.v
theories/PropsPlacement.v
theories/LengthSpec.v
theories/LengthProofs.v
theories/PropsLength.v
theories/PolarBadSpec.v
theories/PolarBadProofs.v
theories/PropsPolarBad.v
theories/WriteSpec.v
theories/WriteProofs.v
theories/PropsWrite.v
theories/BladeDiffFl.v
theories/FlDvSpec.v
theories/FlDvProofs.v
theories/FlDvRates.v
theories/PropsFlDv.v
theories/InverseForward.v
theories/InverseWitness.v
theories/PropsInverse.v
theories/TrackSpec.v
theories/TrackProofs.v
theories/PropsTrack.v
theories/BetzSpec.v
theories/BetzProofs.v
theories/BetzStation.v
theories/BetzRotor.v
theories/IdealRoot.v
theories/BetzWitness.v
theories/PropsBetz.v
theories/BetzTolSpec.v
theories/BetzTol.v
theories/BetzTolRotor.v
theories/BetzTolWitness.v
theories/PropsBetzTol.v
theories/ThrustProofs.v
theories/ThrustStation.v
theories/ThrustSpec.v
theories/ThrustRotor.v
theories/PropsThrust.v
theories/TwistFail.v
theories/PropsTwistFail.v
theories/EnoughProofs.v
theories/PropsEnough.v
theories/SoliditySpec.v
theories/SolidityProofs.v
theories/PropsSolidity.v
theories/ArrayWind.v
theories/PropsArrayWind.v
theories/EvalArrays.v
theories/EvalArraysProofs.v
theories/PropsEvalArrays.v
theories/LocalSpec.v
theories/LocalProofs.v
theories/LocalWitness.v
theories/PropsLocal.v
theories/PitchDv.v
theories/PropsPitchDv.v
theories/HubSpec.v
theories/HubProofs.v
theories/PropsHub.v
theories/EulerSpec.v
theories/EulerProofs.v
theories/PropsEuler.v
theories/Flap.v
theories/FlapSpec.v
theories/FlapProofs.v
theories/PropsFlap.v
theories/DragSpec.v
theories/DragStation.v
theories/DragRotor.v
theories/DragWitness.v
theories/PropsDrag.v
theories/StraightProofs.v
theories/PropsStraight.v
theories/ReSpec.v
theories/ReProofs.v
theories/PropsRe.v
theories/ViternaSpec.v
theories/ViternaProofs.v
theories/PropsViterna.v
theories/MirrorSpec.v
theories/MirrorProofs.v
theories/MirrorWitness.v
theories/PropsMirror.v
theories/BlendSpec.v
theories/BlendProofs.v
theories/PropsBlend.v
theories/CorrSpec.v
theories/CorrProofs.v
theories/PropsCorr.v
theories/LookupSpec.v
theories/LookupProofs.v
theories/PropsLookup.v
theories/WindBoundSpec.v
theories/WindBoundProofs.v
theories/PropsWindBound.v
theories/AttachedSpec.v
theories/AttachedLoss.v
theories/AttachedProofs.v
theories/AttachedWitness.v
theories/PropsAttached.v
theories/LossRaiseSpec.v
theories/LossRaiseProofs.v
theories/PropsLossRaise.v
