.lia.cache
.nia.cache
.nra.cache
*.vo
*.vok
*.vos
*.glob
*.aux
rocq/.nra.cache
