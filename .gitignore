.lia.cache
.nra.cache
.nia.cache
*.vo
*.vok
*.vos
*.glob
*.aux
